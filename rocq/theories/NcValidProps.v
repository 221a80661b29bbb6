(** * C56: checking netCDF files.

    validate_netcdf_file accepts exactly the files described by [valid_file]: a name that ends in ".nc", a known data dictionary version,
    nothing but groups <IDS name>/<occurrence>, in which every variable is a quantity of the IDS with its type, dimensions, units and no
    unknown attributes.  Files written by the library are accepted.  An accepted occurrence can be read if the sizes of its arrays of
    structures fit, and what is read is what the variables contain.
    Not checked are these sizes: there are accepted files that cannot be read. *)
From Verif Require Import Base TreeModel TreeSpec TreeProofs TreeCheck ValProofs StoreProofs2 ConvSpec NcMetaModel NcMetaSpec NcMetaProofs NcFileModel NcFileSpec NcFileProofs6 NcConvProofs4 NcFileProps NcValidModel NcValidSpec NcValidProofs NcValidProofs2.
From Verif Require NcMetaProps NcEntryModel NcEntryProps VmapProofs4.
From Coq Require Import Lia Permutation.

Definition usable_definition (d : definition) : Prop := wf_meta (d_meta d) /\ mkind (d_meta d) = KStruct /\ names_ok (d_meta d).
(** what the reader needs to know about a data dictionary *)
Definition usable_factory (factory : str -> option (list (str * definition))) : Prop :=
  forall v defs, factory v = Some defs -> NoDup (akeys defs) /\ forall name d, In (name, d) defs -> usable_definition d.
(** strings have at most one dimension *)
Definition strings_ok (d : definition) : Prop := forall p c a n nd, in_ids (d_meta d) p c a n -> mkind c = KLeaf STR nd -> nd <= 1.
Definition netcdf_groups (f : ncfile) : Prop := distinct_groups f /\ forall name o g, subgroup f name o g -> netcdf g.

Lemma each_iff : forall E A (f : A -> result E unit) l, each f l = Ok tt <-> forall x, In x l -> f x = Ok tt.
Proof.
  induction l as [|a l IH]; cbn [each]; [split; [intros _ x []|auto]|]. split.
  - destruct (f a) as [[]|] eqn:Fa; [|discriminate]. cbn [rbind]. intros H x [<- |I]; auto. now apply IH.
  - intros H. rewrite (H a (or_introl eq_refl)). cbn [rbind]. apply IH. intros; apply H. now right.
Qed.
Lemma ends_with_iff : forall s x, ends_with s x = true <-> exists b, x = b ++ s.
Proof.
  intros s x. unfold ends_with. rewrite str_eqb_eq. split.
  - intros H. exists (firstn (length x - length s) x). rewrite <- H at 2. symmetry. apply firstn_skipn.
  - intros (b & ->). rewrite app_length. replace (length b + length s - length s) with (length b) by lia. rewrite skipn_app, Nat.sub_diag, skipn_all. reflexivity.
Qed.
Lemma check_iff : forall fuel d g, usable_definition d -> netcdf g -> (check_variables fuel false d g = Ok tt <-> valid_occurrence fuel d g).
Proof.
  intros fuel d g (W & K & NO) N. unfold check_variables, valid_occurrence. split.
  - destruct (nc_metadata (d_attrs d) fuel (d_meta d)) as [r|] eqn:R; [|discriminate]. intros H. destruct (read_homogeneous (d_meta d) r (d_units d) g) as [h|e] eqn:M.
    + cbn [rbind] in H. destruct (validate_variables (d_meta d) r (d_units d) g h) as [[]|e] eqn:V; [|destruct e; discriminate]. exists r, h. split; auto. split; [now apply (mode_iff (d_attrs d) fuel (d_meta d) r (d_units d) g W R N)|now apply (contents_iff (d_attrs d) fuel (d_meta d) r (d_units d) g W R N NO)].
    + cbn [rbind] in H. destruct e; discriminate.
  - intros (r & h & R & M & C). rewrite R. rewrite (proj2 (mode_iff (d_attrs d) fuel (d_meta d) r (d_units d) g W R N h) M). cbn [rbind]. now rewrite (proj2 (contents_iff (d_attrs d) fuel (d_meta d) r (d_units d) g W R N NO h) C).
Qed.
Lemma groups_iff : forall f name o g, distinct_groups f -> (In (o, g) (groups_of f name) <-> subgroup f name o g).
Proof.
  intros f name o g [D _]. unfold groups_of, subgroup. split.
  - destruct (alookup name (nf_groups f)) as [ig|] eqn:A; [|intros []]. intros I. exists ig. split; auto. now apply alookup_In in A.
  - intros (ig & I & Io). rewrite (alookup_NoDup_In _ _ _ D I). exact Io.
Qed.
Lemma lookup_iff : forall f name o g, distinct_groups f -> (alookup o (groups_of f name) = Some g <-> subgroup f name o g).
Proof.
  intros f name o g D. rewrite <- (groups_iff f name o g D). split; [apply alookup_In|]. apply alookup_NoDup_In. destruct D as [D1 D2]. unfold groups_of. destruct (alookup name (nf_groups f)) as [ig|] eqn:A; [|constructor]. eapply D2. eapply alookup_In. exact A.
Qed.
Lemma filter_map_In : forall A B (f : A -> option B) l y, In y (NcEntryModel.filter_map f l) <-> exists x, In x l /\ f x = Some y.
Proof.
  induction l as [|a l IH]; intros y; cbn [NcEntryModel.filter_map]; [split; [intros []|intros (x & [] & _)]|]. destruct (f a) as [b|] eqn:E.
  - cbn [In]. rewrite IH. split; [intros [<- |(x & I & Q)]; [exists a; split; [now left|exact E]|exists x; split; [now right|exact Q]]|]. intros (x & [Ea|I] & Q); [left; congruence|right; eauto].
  - rewrite IH. split; [intros (x & I & Q); exists x; split; [now right|exact Q]|]. intros (x & [Ea|I] & Q); [congruence|eauto].
Qed.
Lemma occurrence_iff : forall f name z, In z (occurrences f name) <-> exists o g, In (o, g) (groups_of f name) /\ NcEntryModel.py_int o = Some z.
Proof.
  intros f name z. unfold occurrences. split.
  - intros I. apply (Permutation_in _ (Permutation_sym (NcEntryProps.zsort_perm _))) in I. apply filter_map_In in I. destruct I as ((o & g) & I & E). exists o, g. auto.
  - intros (o & g & I & E). apply (Permutation_in _ (NcEntryProps.zsort_perm _)). apply filter_map_In. exists (o, g). auto.
Qed.
Lemma open_iff : forall factory f defs, nf_own f = false -> (open_file factory f = Ok defs <-> nf_groups f <> [] /\ exists v, nf_version f = Some v /\ factory v = Some defs).
Proof.
  intros factory f defs O. unfold open_file. rewrite O. cbn [negb andb]. destruct (nf_groups f) as [|x t]; cbn [is_nil].
  - split; [discriminate|intros [Q _]; congruence].
  - destruct (nf_version f) as [v|]; [|split; [discriminate|intros (_ & v & Q & _); discriminate]]. destruct (factory v) as [d|] eqn:F.
    + split; [intros H; injection H as <-; split; [discriminate|exists v; auto]|]. intros (_ & v' & E & F'). injection E as <-. congruence.
    + split; [discriminate|]. intros (_ & v' & E & F'). injection E as <-. congruence.
Qed.
Lemma key_iff : forall A (l : list (str * A)) k, existsb (str_eqb k) (akeys l) = true <-> In k (akeys l).
Proof. intros A l k. rewrite existsb_exists. split; [intros (x & I & E); apply str_eqb_eq in E; congruence|intros I; exists k; split; auto; apply str_eqb_refl]. Qed.

Theorem C56_accepted : forall factory fuel fname f, usable_factory factory -> netcdf_groups f ->
  (validate_file factory fuel false fname f = Ok tt <-> valid_file factory fuel fname f).
Proof.
  intros factory fuel fname f UF [DG NG]. unfold validate_file, valid_file. rewrite <- ends_with_iff.
  destruct (ends_with (strs ".nc") fname) eqn:EW; cbn [negb]; [|split; [discriminate|intros (Q & _); discriminate]].
  destruct (nf_own f) eqn:O.
  { split; [|intros (_ & Q & _); discriminate]. destruct (open_file factory f); discriminate. }
  assert (GI : forall defs, each (check_group defs) (nf_groups f) = Ok tt <-> (forall name ig, In (name, ig) (nf_groups f) -> ig_own ig = false /\ In name (akeys defs)) /\ (forall name o g, subgroup f name o g -> exists z, NcEntryModel.py_int o = Some z)).
  { intros defs. rewrite each_iff. unfold check_group. split.
    - intros H. assert (X : forall name ig, In (name, ig) (nf_groups f) -> ig_own ig = false /\ In name (akeys defs) /\ forall o g, In (o, g) (ig_occ ig) -> exists z, NcEntryModel.py_int o = Some z).
      { intros name ig I. specialize (H (name, ig) I). cbn [fst snd] in H. destruct (ig_own ig); [discriminate|]. destruct (existsb (str_eqb name) (akeys defs)) eqn:E; [|discriminate]. apply key_iff in E. cbn [negb] in H. split; auto. split; auto.
        intros o g Io. rewrite each_iff in H. specialize (H (o, g) Io). cbn [fst] in H. destruct (NcEntryModel.py_int o); [eauto|discriminate]. }
      split; [intros name ig I; destruct (X name ig I) as (A & B & _); auto|]. intros name o g (ig & I & Io). destruct (X name ig I) as (_ & _ & Q). eauto.
    - intros [H1 H2] [name ig] I. cbn [fst snd]. destruct (H1 name ig I) as [A B]. rewrite A. rewrite (proj2 (key_iff _ defs name) B). cbn [negb]. apply each_iff. intros [o g] Io. cbn [fst].
      destruct (H2 name o g) as [z ->]; [exists ig; auto|reflexivity]. }
  assert (OI : forall defs, (forall name d, In (name, d) defs -> usable_definition d) -> (each (fun d => each (check_occurrence fuel false f d) (occurrences f (fst d))) defs = Ok tt <->
    forall name d o g z, In (name, d) defs -> subgroup f name o g -> NcEntryModel.py_int o = Some z -> exists g', subgroup f name (NcEntryModel.show_Z z) g' /\ valid_occurrence fuel d g')).
  { intros defs UD. rewrite each_iff. split.
    - intros H name d o g z I S1 P. specialize (H (name, d) I). cbn [fst] in H. rewrite each_iff in H. specialize (H z). unfold check_occurrence in H. cbn [fst snd] in H.
      assert (Iz : In z (occurrences f name)) by (apply occurrence_iff; exists o, g; split; auto; now apply groups_iff). specialize (H Iz).
      destruct (alookup (NcEntryModel.show_Z z) (groups_of f name)) as [g'|] eqn:A; [|discriminate]. apply lookup_iff in A; auto. exists g'. split; auto. apply check_iff; eauto.
    - intros H [name d] I. cbn [fst]. apply each_iff. intros z Iz. apply occurrence_iff in Iz. destruct Iz as (o & g & Io & P). apply groups_iff in Io; auto. destruct (H name d o g z I Io P) as (g' & S1 & V).
      unfold check_occurrence. cbn [fst snd]. rewrite (proj2 (lookup_iff f name _ g' DG) S1). apply check_iff; eauto. }
  split.
  - intros H. destruct (open_file factory f) as [defs|e] eqn:OF; [|discriminate]. cbn [rbind] in H. apply open_iff in OF; auto. destruct OF as (NE & v & EV & EF). destruct (UF v defs EF) as [ND UD].
    destruct (each (check_group defs) (nf_groups f)) as [[]|] eqn:CG; [|discriminate]. cbn [rbind] in H. apply GI in CG. destruct CG as [G1 G2]. pose proof (proj1 (OI defs UD) H) as H'.
    split; auto. split; auto. split; auto. exists v, defs. auto.
  - intros (_ & _ & NE & v & defs & EV & EF & G1 & G2 & H). destruct (UF v defs EF) as [ND UD]. rewrite (proj2 (open_iff factory f defs O)); [|split; [exact NE|exists v; auto]]. cbn [rbind].
    rewrite (proj2 (GI defs) (conj G1 G2)). cbn [rbind]. now apply (OI defs UD).
Qed.
Print Assumptions C56_accepted.

(** ** accepted occurrences can be read *)
Lemma read_group_ok : forall fuel d g, usable_definition d -> netcdf g -> forall r h, nc_metadata (d_attrs d) fuel (d_meta d) = Ok r -> valid_mode (d_meta d) r (d_units d) g h -> valid_contents (d_meta d) r (d_units d) g h ->
  fitting_sizes (d_meta d) r h g -> exists n, read_group fuel false d g = Ok n.
Proof.
  intros fuel d g (W & K & NO) N r h R M C FS. unfold read_group. rewrite R. rewrite (proj2 (mode_iff (d_attrs d) fuel (d_meta d) r (d_units d) g W R N h) M). cbn [rbind].
  rewrite (proj2 (contents_iff (d_attrs d) fuel (d_meta d) r (d_units d) g W R N NO h) C). cbn [rbind]. destruct (read_ok (d_attrs d) fuel (d_meta d) r (d_units d) g h W K R NO N C FS) as [fs ->]. cbn [rbind]. eauto.
Qed.
Theorem C56_readable : forall factory fuel fname f v defs name d z g,
  usable_factory factory -> netcdf_groups f -> validate_file factory fuel false fname f = Ok tt ->
  nf_version f = Some v -> factory v = Some defs -> In (name, d) defs -> subgroup f name (NcEntryModel.show_Z z) g ->
  (forall r h, nc_metadata (d_attrs d) fuel (d_meta d) = Ok r -> valid_mode (d_meta d) r (d_units d) g h -> fitting_sizes (d_meta d) r h g) ->
  exists n, read_occurrence factory fuel false f name z = Ok n.
Proof.
  intros factory fuel fname f v defs name d z g UF NG VF EV EF I S1 FS. apply (C56_accepted factory fuel fname f UF NG) in VF. destruct VF as (_ & O & NE & v' & defs' & EV' & EF' & _ & _ & H).
  assert (v' = v) by congruence. subst v'. assert (defs' = defs) by congruence. subst defs'. destruct (UF v defs EF) as [ND UD]. destruct NG as [DG NG].
  destruct (H name d _ g z I S1 (NcEntryProps.py_int_show z)) as (g' & S2 & (r & h & R & M & C)). assert (g' = g).
  { apply (lookup_iff f name _ _ DG) in S1, S2. congruence. } subst g'.
  unfold read_occurrence. rewrite (proj2 (open_iff factory f defs O)); [|split; [exact NE|exists v; auto]]. cbn [rbind]. rewrite (alookup_NoDup_In _ _ _ ND I). rewrite (proj2 (lookup_iff f name _ g DG) S1).
  eapply read_group_ok; eauto.
Qed.
Print Assumptions C56_readable.

(** ** what is read is what the variables contain *)
Theorem C56_values : forall fuel d g n, usable_definition d -> strings_ok d -> netcdf g -> read_group fuel false d g = Ok n ->
  exists r h, nc_metadata (d_attrs d) fuel (d_meta d) = Ok r /\ valid_mode (d_meta d) r (d_units d) g h /\
    (forall l v, leaf_at (d_meta d) n l v <-> file_leaf (d_meta d) r h g l v) /\ (forall l k, aos_at (d_meta d) n l k <-> file_aos (d_meta d) r h g l k).
Proof.
  intros fuel d g n (W & K & NO) ST N H. unfold read_group in H. destruct (nc_metadata (d_attrs d) fuel (d_meta d)) as [r|] eqn:R; [|discriminate].
  destruct (read_homogeneous (d_meta d) r (d_units d) g) as [h|e] eqn:M; [|destruct e; discriminate]. cbn [rbind] in H.
  destruct (validate_variables (d_meta d) r (d_units d) g h) as [[]|e] eqn:V; [|destruct e; discriminate]. cbn [rbind] in H.
  destruct (read_vars (d_meta d) r g h (sorted_vars g) []) as [fs|e] eqn:RV; [|destruct e; discriminate]. cbn [rbind] in H. injection H as <-.
  exists r, h. split; auto. split; [now apply (mode_iff (d_attrs d) fuel (d_meta d) r (d_units d) g W R N)|].
  apply (read_holds (d_attrs d) fuel (d_meta d) r (d_units d) g h W K R NO N); auto; [now apply (contents_iff (d_attrs d) fuel (d_meta d) r (d_units d) g W R N NO)|].
  intros p c nd a lv I KC. eapply ST; eauto.
Qed.
Print Assumptions C56_values.

(** ** files that the library wrote are accepted *)
Definition storable_definition (d : definition) : Prop := usable_definition d /\ small_dims (d_meta d) /\ no_structure_errors (d_meta d).
Theorem C56_written : forall factory fuel fname v defs l f, factory v = Some defs -> (forall name d, In (name, d) defs -> storable_definition d) -> NoDup (akeys defs) ->
  (exists b, fname = b ++ strs ".nc") -> l <> [] -> put_all fuel defs (new_file v) l = Some f ->
  (forall name z n d, In (name, z, n) l -> In (name, d) defs -> conf (d_meta d) n /\ time_mode (d_meta d) n) ->
  validate_file factory fuel false fname f = Ok tt.
Proof.
  intros factory fuel fname v defs l f EF SD ND EW NE P CO.
  pose (ok := fun f => nf_own f = false /\ nf_version f = Some v /\ forall name ig, In (name, ig) (nf_groups f) -> ig_own ig = false /\ exists d, In (name, d) defs /\
    forall o g, In (o, g) (ig_occ ig) -> (exists z, o = NcEntryModel.show_Z z) /\ check_variables fuel false d g = Ok tt).
  assert (STEP : forall f name z n f', ok f -> (forall d, In (name, d) defs -> conf (d_meta d) n /\ time_mode (d_meta d) n) -> put_occurrence fuel defs f name z n = Some f' -> ok f' /\ nf_groups f' <> []).
  { clear - SD ND. intros f name z n f' (O & EV & G) CO H. unfold put_occurrence in H. destruct (alookup name defs) as [d|] eqn:AD; [|discriminate]. destruct (nc_metadata (d_attrs d) fuel (d_meta d)) as [r|] eqn:R; [|discriminate].
    destruct (alookup (NcEntryModel.show_Z z) (groups_of f name)) eqn:A; [discriminate|]. destruct (put (d_meta d) r (d_units d) n) as [g|] eqn:PG; [|discriminate]. injection H as <-. pose proof (alookup_In _ _ _ AD) as ID.
    destruct (CO d ID) as [Cn TM]. destruct (SD name d ID) as ((W & K & NO) & SM & NSE). destruct (C37_valid (d_attrs d) fuel (d_meta d) r (d_units d) W K NO SM NSE R n Cn TM g PG) as [HM HV].
    assert (CV : check_variables fuel false d g = Ok tt) by (unfold check_variables; rewrite R, HM; cbn [rbind]; now rewrite HV).
    assert (UNIQ : forall d', In (name, d') defs -> d' = d) by (intros d' I'; apply (alookup_NoDup_In _ _ _ ND) in I'; congruence).
    split; [|cbn [nf_groups]; destruct (nf_groups f) as [|[k0 x0] t0]; cbn [aset]; [discriminate|destruct (str_eqb name k0); discriminate]]. split; [exact O|]. split; [exact EV|]. cbn [nf_groups]. intros name' ig I.
    assert (X : name' = name /\ ig = {| ig_own := match alookup name (nf_groups f) with Some x => ig_own x | None => false end; ig_occ := groups_of f name ++ [(NcEntryModel.show_Z z, g)] |} \/ In (name', ig) (nf_groups f)).
    { clear - I. revert I. generalize {| ig_own := match alookup name (nf_groups f) with Some x => ig_own x | None => false end; ig_occ := groups_of f name ++ [(NcEntryModel.show_Z z, g)] |}. intros new. induction (nf_groups f) as [|[k0 x0] t IH]; cbn [aset]; intros I.
      - destruct I as [I|[]]. left. injection I as <- <-. auto.
      - destruct (str_eqb name k0) eqn:E.
        + destruct I as [I|I]; [left; apply str_eqb_eq in E; injection I as <- <-; auto|right; now right].
        + destruct I as [I|I]; [right; now left|]. destruct (IH I) as [Q|Q]; [now left|right; now right]. }
    destruct X as [(-> & ->)|X]; [|apply G; exact X]. cbn [ig_own ig_occ]. assert (OLD : match alookup name (nf_groups f) with Some x => ig_own x | None => false end = false /\ forall o g, In (o, g) (groups_of f name) -> (exists z, o = NcEntryModel.show_Z z) /\ check_variables fuel false d g = Ok tt).
    { unfold groups_of. destruct (alookup name (nf_groups f)) as [x|] eqn:AX; [|split; [reflexivity|intros o g0 []]]. apply alookup_In in AX. destruct (G name x AX) as (G1 & d' & I' & G2). rewrite (UNIQ d' I') in G2. auto. }
    split; [apply OLD|]. exists d. split; auto. intros o g0 I0. apply in_app_or in I0. destruct I0 as [I0|[I0|[]]]; [apply OLD; exact I0|]. injection I0 as <- <-. split; [exists z; reflexivity|exact CV]. }
  assert (ALL : ok f /\ nf_groups f <> []).
  { assert (X : forall l f0, ok f0 -> (forall name z n d, In (name, z, n) l -> In (name, d) defs -> conf (d_meta d) n /\ time_mode (d_meta d) n) -> put_all fuel defs f0 l = Some f -> ok f /\ (l <> [] \/ nf_groups f0 <> [] -> nf_groups f <> [])).
    { clear - STEP. induction l as [|[[name z] n] l IH]; intros f0 OK CO P; cbn [put_all] in P.
      - injection P as <-. split; auto. intros [Q|Q]; auto.
      - destruct (put_occurrence fuel defs f0 name z n) as [f1|] eqn:PO; [|discriminate]. destruct (STEP f0 name z n f1 OK) as [OK1 N1]; auto; [intros d I; eapply CO; eauto; now left|].
        destruct (IH f1 OK1) as [OKf Nf]; [intros name' z' n' d' I; apply (CO name' z' n' d'); now right|exact P|]. split; [exact OKf|]. intros _. apply Nf. now right. }
    destruct (X l (new_file v)) as [OKf Nf]; [split; [reflexivity|]; split; [reflexivity|]; intros name ig []|exact CO|exact P|]. split; [exact OKf|]. apply Nf. now left. }
  destruct ALL as ((O & EV & G) & NG). unfold validate_file. rewrite (proj2 (ends_with_iff (strs ".nc") fname) EW). cbn [negb]. rewrite (proj2 (open_iff factory f defs O)); [|split; [exact NG|exists v; auto]]. cbn [rbind]. rewrite O.
  assert (CG : each (check_group defs) (nf_groups f) = Ok tt).
  { apply each_iff. intros [name ig] I. destruct (G name ig I) as (O1 & d & ID & Q). unfold check_group. cbn [fst snd]. rewrite O1. rewrite (proj2 (key_iff _ defs name)); [|unfold akeys; now apply (List.in_map fst) in ID]. cbn [negb].
    apply each_iff. intros [o g] Io. destruct (Q o g Io) as ((z & ->) & _). cbn [fst]. now rewrite NcEntryProps.py_int_show. }
  rewrite CG. cbn [rbind]. apply each_iff. intros [name d] ID. cbn [fst]. apply each_iff. intros z Iz. apply occurrence_iff in Iz. destruct Iz as (o & g & Io & PZ). unfold check_occurrence. cbn [fst snd].
  assert (GR : forall o g, In (o, g) (groups_of f name) -> (exists z, o = NcEntryModel.show_Z z) /\ check_variables fuel false d g = Ok tt).
  { intros o' g' I'. unfold groups_of in I'. destruct (alookup name (nf_groups f)) as [x|] eqn:AX; [|destruct I']. apply alookup_In in AX. destruct (G name x AX) as (_ & d' & Id' & Q).
    assert (d' = d) by (apply (alookup_NoDup_In _ _ _ ND) in Id', ID; congruence). subst d'. auto. }
  destruct (GR o g Io) as ((z' & ->) & _). rewrite NcEntryProps.py_int_show in PZ. injection PZ as ->.
  destruct (alookup (NcEntryModel.show_Z z) (groups_of f name)) as [g'|] eqn:A; [apply alookup_In in A; now apply (GR _ _ A)|].
  exfalso. clear - A Io. induction (groups_of f name) as [|[k x] t IH]; [destruct Io|]. cbn [alookup] in A. destruct (str_eqb (NcEntryModel.show_Z z) k) eqn:E; [discriminate|]. destruct Io as [Io|Io]; [injection Io as -> _; rewrite str_eqb_refl in E; discriminate|auto].
Qed.
Print Assumptions C56_written.

(** ** Examples *)
Definition ex_vm : meta :=
  Meta (strs "x") KStruct [ Meta (strs "ids_properties") KStruct [NcMetaProps.leaf "homogeneous_time" INT 0];
                            Meta (strs "a") KAoS [NcMetaProps.leaf "v" FLT 0; NcMetaProps.leaf "w" FLT 1] ].
Definition ex_def : definition := {| d_meta := ex_vm; d_attrs := fun _ => NcMetaProps.no_refs; d_units := fun _ => [] |}.
Definition ex_factory (v : str) : option (list (str * definition)) := if str_eqb v (strs "4.0.0") then Some [(strs "x", ex_def)] else None.
Definition ex_vr : ncmeta := match nc_metadata (d_attrs ex_def) 100 ex_vm with Ok r => r | Err _ => ex_r end.
Definition var (name : string) (t : option dtype) (dims : list string) (fill : option cell) (sparse : bool) (data : list nat -> cell) : ncvar :=
  {| v_name := strs name; v_type := t; v_dims := map strs dims; v_fill := fill; v_units := None; v_anc := None; v_coords := None; v_sparse := sparse; v_extra := []; v_data := data |}.
Definition mode_var : ncvar := var "ids_properties.homogeneous_time" (Some INT) [] None false (fun _ => CInt 0).
Definition v_var : ncvar := var "a.v" (Some FLT) ["a:i"]%string None false (fun ix => CFlt (fl (Z.of_nat (nth 0 ix 0)))).
Definition w_var : ncvar := var "a.w" (Some FLT) ["a:i"; "a.w:i"]%string (Some (CFlt FILL_FLT)) true (fun ix => CFlt (fl (Z.of_nat (10 + nth 1 ix 0)))).
Definition a_var (sparse : bool) : ncvar := var "a" None [] None sparse (fun _ => CStr []).
Definition shape (name : string) (dims : list string) (rows : list nat -> list Z) : shvar := {| s_name := strs name; s_dims := map strs dims; s_integer := true; s_data := rows |}.
Definition dims (l : list (string * nat)) : list (str * nat) := map (fun x => (strs (fst x), snd x)) l.
Definition rows_w (ix : list nat) : list Z := match ix with [0] => [3%Z] | [1] => [1%Z] | _ => [0%Z] end.
(** two elements, with three and one number in w *)
Definition ex_good : group :=
  {| g_sizes := dims [("a:i", 2); ("a.w:i", 3); ("1D", 1)]%string; g_vars := [mode_var; a_var false; v_var; w_var]; g_shapes := [shape "a.w" ["a:i"; "1D"]%string rows_w] |}.
Definition file_of (l : list (string * group)) : ncfile :=
  {| nf_own := false; nf_version := Some (strs "4.0.0"); nf_groups := [(strs "x", {| ig_own := false; ig_occ := map (fun x => (strs (fst x), snd x)) l |})] |}.
Definition ex_file : str := strs "data.nc".
Definition validate (f : ncfile) : result vexn unit := validate_file ex_factory 100 false ex_file f.

Lemma ex_usable : usable_definition ex_def /\ strings_ok ex_def.
Proof.
  split.
  - split; [by_check|]. split; [reflexivity|]. apply (dict_b_sound ex_vm). vm_compute. reflexivity.
  - intros p c a n nd I K. assert (J : In (p, c, a, n) (visits ex_vm [] None 0)) by (apply visits_In; exact I). cbn in J.
    repeat (destruct J as [J|J]; [injection J as <- <- <- <-; cbn in K; discriminate|]). destruct J.
Qed.
Lemma ex_factory_ok : usable_factory ex_factory.
Proof.
  intros v defs H. unfold ex_factory in H. destruct (str_eqb v (strs "4.0.0")); [|discriminate]. injection H as <-. split; [constructor; [intros []|constructor]|]. intros name d [I|[]]. injection I as _ <-. apply ex_usable.
Qed.
(** finite conditions of [netcdf] *)
Definition netcdf_b (g : group) : bool :=
  VmapProofs4.nodup_b (map v_name (g_vars g)) && VmapProofs4.nodup_b (map s_name (g_shapes g)) &&
  forallb (fun v => forallb (fun d => is_some (sget d (g_sizes g))) (v_dims v)) (g_vars g) && forallb (fun s => forallb (fun d => is_some (sget d (g_sizes g))) (s_dims s)) (g_shapes g).
Lemma netcdf_b_sound : forall g, netcdf_b g = true -> (forall v t ix, In v (g_vars g) -> v_type v = Some t -> typed t (v_data v ix)) ->
  (forall s ix, In s (g_shapes g) -> exists d, sget (last (s_dims s) []) (g_sizes g) = Some d /\ length (s_data s ix) = d) -> netcdf g.
Proof.
  intros g B T L. unfold netcdf_b in B. rewrite !Bool.andb_true_iff in B. destruct B as (((B1 & B2) & B3) & B4). rewrite forallb_forall in B3, B4. constructor; auto.
  - now apply VmapProofs4.nodup_b_sound.
  - now apply VmapProofs4.nodup_b_sound.
  - intros v d Iv Id. specialize (B3 v Iv). rewrite forallb_forall in B3. specialize (B3 d Id). unfold size_of. destruct (sget d (g_sizes g)) as [k|]; [eauto|discriminate].
  - intros s d Iv Id. specialize (B4 s Iv). rewrite forallb_forall in B4. specialize (B4 d Id). unfold size_of. destruct (sget d (g_sizes g)) as [k|]; [eauto|discriminate].
  - intros s ds d k ix Is E S1. destruct (L s ix Is) as (k' & S2 & L2). rewrite E, last_last in S2. unfold size_of in S1. congruence.
Qed.
Ltac one_of I := repeat (destruct I as [<- | I]; [|]); try destruct I.
Lemma ex_good_netcdf : netcdf ex_good.
Proof.
  apply netcdf_b_sound; [vm_compute; reflexivity| |].
  - intros v t ix I E. cbn [ex_good g_vars In] in I. one_of I; cbn in E; try discriminate; injection E as <-; exact Logic.I.
  - intros s ix I. cbn [ex_good g_shapes In] in I. one_of I. exists 1. split; [vm_compute; reflexivity|]. cbn. destruct ix as [|[|[|?]] [|? ?]]; reflexivity.
Qed.
Lemma ex_good_mode : forall h, valid_mode ex_vm ex_vr (d_units ex_def) ex_good h -> h = false.
Proof.
  intros h (v & c & a & n & z & I & E & _ & _ & D & _ & H). cbn [ex_good g_vars In] in I. one_of I; try (exfalso; revert E; vm_compute; discriminate). cbn in D. injection D as <-. destruct h; auto. destruct H as [H _]. specialize (H eq_refl). discriminate.
Qed.
Lemma ex_good_fits : fitting_sizes ex_vm ex_vr false ex_good.
Proof.
  intros p c a n v I K Iv E. assert (J : In (p, c, a, n) (visits ex_vm [] None 0)) by (apply visits_In; exact I). cbn in J.
  destruct J as [J|[J|[J|[J|[J|[]]]]]]; injection J as <- <- <- <-; cbn in K; try discriminate. exists [], (strs "a:i"), 2. split; [vm_compute; reflexivity|]. split; [vm_compute; reflexivity|].
  intros SP s ix z Is Es. exfalso. cbn [ex_good g_shapes In] in Is. one_of Is. revert Es. vm_compute. discriminate.
Qed.
Lemma one_group : forall o g, netcdf g -> netcdf_groups (file_of [(o, g)]).
Proof.
  intros o g N. split; [split|].
  - constructor; [intros []|constructor].
  - intros name ig [I|[]]. injection I as <- <-. constructor; [intros []|constructor].
  - intros name o' g' (ig & [I|[]] & Io). injection I as <- <-. destruct Io as [Io|[]]. injection Io as _ <-. exact N.
Qed.
(** the hypotheses of C56_accepted, C56_readable and C56_values hold for a file with one IDS *)
Example C56_hypotheses :
  usable_factory ex_factory /\ netcdf_groups (file_of [("7"%string, ex_good)]%string) /\ validate (file_of [("7"%string, ex_good)]%string) = Ok tt /\
  subgroup (file_of [("7"%string, ex_good)]%string) (strs "x") (NcEntryModel.show_Z 7) ex_good /\
  (forall r h, nc_metadata (d_attrs ex_def) 100 ex_vm = Ok r -> valid_mode ex_vm r (d_units ex_def) ex_good h -> fitting_sizes ex_vm r h ex_good) /\
  read_occurrence ex_factory 100 false (file_of [("7"%string, ex_good)]%string) (strs "x") 7 =
    Ok (st [ ("a", NAoS [st [("v", NLeaf (Some (VFlt (fl 0)))); ("w", vec [10; 11; 12]%Z)]; st [("v", NLeaf (Some (VFlt (fl 1)))); ("w", vec [10]%Z)]]);
             ("ids_properties", st [("homogeneous_time", NLeaf (Some (VInt 0)))]) ]%string).
Proof.
  split; [apply ex_factory_ok|]. split; [apply one_group, ex_good_netcdf|]. split; [vm_compute; reflexivity|]. split; [eexists; split; [left; reflexivity|left; reflexivity]|]. split.
  - intros r h R M. assert (ER : r = ex_vr) by (unfold ex_vr; change (d_meta ex_def) with ex_vm in R; now rewrite R). subst r. rewrite (ex_good_mode h M). apply ex_good_fits.
  - vm_compute. reflexivity.
Qed.
(** writing two IDSs gives an accepted file *)
Definition ex_node (h : Z) : node := st [("ids_properties", st [("homogeneous_time", NLeaf (Some (VInt h)))]%string); ("a", NAoS [st [("w", vec [1; 2]%Z)]; st [("v", NLeaf (Some (VFlt (fl 1))))]%string])]%string.
Definition ex_puts : list (str * Z * node) := [(strs "x", 0%Z, ex_node 0); (strs "x", 12%Z, ex_node 1)].
Example C56_written_hypotheses : storable_definition ex_def /\ (exists f, put_all 100 [(strs "x", ex_def)] (new_file (strs "4.0.0")) ex_puts = Some f /\ validate f = Ok tt) /\
  forall name z n d, In (name, z, n) ex_puts -> In (name, d) [(strs "x", ex_def)] -> conf (d_meta d) n /\ time_mode (d_meta d) n.
Proof.
  split; [|split].
  - split; [apply ex_usable|]. destruct (dict_b_sound ex_vm) as (_ & A & B); [vm_compute; reflexivity|auto].
  - eexists. split; [vm_compute; reflexivity|]. vm_compute. reflexivity.
  - intros name z n d I [J|[]]. injection J as _ <-. change (d_meta ex_def) with ex_vm. assert (NL : ~ is_leaf ex_vm) by apply not_leaf_ids.
    destruct I as [I|[I|[]]]; injection I as _ _ <-.
    + assert (Cn : conf ex_vm (ex_node 0)) by by_check. split; auto. apply (time_mode_in ex_vm (ex_node 0) 0 Cn NL); [vm_compute; tauto|auto].
    + assert (Cn : conf ex_vm (ex_node 1)) by by_check. split; auto. apply (time_mode_in ex_vm (ex_node 1) 1 Cn NL); [vm_compute; tauto|auto].
Qed.

(** ** What acceptance does not guarantee *)
(** accepted files that cannot be read: more elements than the dimension has, a negative number of elements, no dimension at all *)
Definition with_size (z : Z) : group :=
  {| g_sizes := dims [("a:i", 2); ("1D", 1)]%string; g_vars := [mode_var; a_var true; v_var]; g_shapes := [shape "a" ["1D"]%string (fun _ => [z])] |}.
Definition no_dimension : group := {| g_sizes := []; g_vars := [mode_var; a_var false]; g_shapes := [] |}.
Theorem C56_readable_refuted : exists f1 f2 f3,
  netcdf_groups f1 /\ validate f1 = Ok tt /\ read_occurrence ex_factory 100 false f1 (strs "x") 0 = Err (VOther FIndex) /\
  netcdf_groups f2 /\ validate f2 = Ok tt /\ read_occurrence ex_factory 100 false f2 (strs "x") 0 = Err (VOther FValue) /\
  netcdf_groups f3 /\ validate f3 = Ok tt /\ read_occurrence ex_factory 100 false f3 (strs "x") 0 = Err (VOther FKey).
Proof.
  assert (N : forall z, netcdf (with_size z)).
  { intros z. apply netcdf_b_sound; [vm_compute; reflexivity| |].
    - intros v t ix I E. cbn [with_size g_vars In] in I. one_of I; cbn in E; try discriminate; injection E as <-; exact Logic.I.
    - intros s ix I. cbn [with_size g_shapes In] in I. one_of I. exists 1. split; [vm_compute; reflexivity|]. reflexivity. }
  assert (N3 : netcdf no_dimension).
  { apply netcdf_b_sound; [vm_compute; reflexivity| |].
    - intros v t ix I E. cbn [no_dimension g_vars In] in I. one_of I; cbn in E; try discriminate; injection E as <-; exact Logic.I.
    - intros s ix []. }
  exists (file_of [("0"%string, with_size 5)]%string), (file_of [("0"%string, with_size (-1))]%string), (file_of [("0"%string, no_dimension)]%string).
  split; [apply one_group, N|]. split; [vm_compute; reflexivity|]. split; [vm_compute; reflexivity|].
  split; [apply one_group, N|]. split; [vm_compute; reflexivity|]. split; [vm_compute; reflexivity|].
  split; [apply one_group, N3|]. split; vm_compute; reflexivity.
Qed.
Print Assumptions C56_readable_refuted.
(** "Invalid files are reported as InvalidNetCDFEntry" is false: a sparse variable without its ":shape" variable is an AttributeError, an
    occurrence with leading zeros a missing group *)
Definition no_shape : group := {| g_sizes := dims [("a:i", 2); ("a.w:i", 3)]%string; g_vars := [mode_var; a_var false; w_var]; g_shapes := [] |}.
Theorem C56_error_refuted : exists f1 f2,
  netcdf_groups f1 /\ validate f1 = Err (VOther FAttr) /\ netcdf_groups f2 /\ validate f2 = Err VMissing.
Proof.
  exists (file_of [("0"%string, no_shape)]%string), (file_of [("01"%string, ex_good)]%string). split.
  - apply one_group, netcdf_b_sound; [vm_compute; reflexivity| |intros s ix []].
    intros v t ix I E. cbn [no_shape g_vars In] in I. one_of I; cbn in E; try discriminate; injection E as <-; exact Logic.I.
  - split; [vm_compute; reflexivity|]. split; [apply one_group, ex_good_netcdf|vm_compute; reflexivity].
Qed.
Print Assumptions C56_error_refuted.
(** "In an accepted file every group is a valid occurrence" is false: the group "01" beside "1" is never looked at *)
Definition nonsense : group := {| g_sizes := []; g_vars := [var "no_such_quantity" (Some FLT) [] None false (fun _ => CFlt 0%Z)]; g_shapes := [] |}.
Theorem C56_groups_refuted : exists f g, netcdf_groups f /\ validate f = Ok tt /\ subgroup f (strs "x") (strs "01") g /\ ~ valid_occurrence 100 ex_def g.
Proof.
  assert (N : netcdf nonsense).
  { apply netcdf_b_sound; [vm_compute; reflexivity| |intros s ix []]. intros v t ix I E. cbn [nonsense g_vars In] in I. one_of I. cbn in E. injection E as <-. exact Logic.I. }
  exists (file_of [("1"%string, ex_good); ("01"%string, nonsense)]%string), nonsense. split.
  - split; [split|].
    + constructor; [intros []|constructor].
    + intros name ig [I|[]]. injection I as <- <-. apply VmapProofs4.nodup_b_sound. vm_compute. reflexivity.
    + intros name o' g' (ig & [I|[]] & Io). injection I as <- <-. destruct Io as [Io|[Io|[]]]; injection Io as _ <-; [apply ex_good_netcdf|exact N].
  - split; [vm_compute; reflexivity|]. split; [eexists; split; [left; reflexivity|right; left; reflexivity]|].
    intros Q. apply (check_iff 100 ex_def nonsense (proj1 ex_usable) N) in Q. revert Q. vm_compute. discriminate.
Qed.
Print Assumptions C56_groups_refuted.
(** with IMAS_DISABLE_NC_VALIDATE, validate_netcdf_file accepts files that cannot be read *)
Definition unknown_variable : group := {| g_sizes := []; g_vars := [mode_var; var "no_such_quantity" (Some FLT) [] None false (fun _ => CFlt 0%Z)]; g_shapes := [] |}.
Theorem C56_disabled_refuted : exists f, validate_file ex_factory 100 true ex_file f = Ok tt /\ validate f = Err VInvalid /\ read_occurrence ex_factory 100 true f (strs "x") 0 = Err (VOther FKey).
Proof. exists (file_of [("0"%string, unknown_variable)]%string). repeat split; vm_compute; reflexivity. Qed.
Print Assumptions C56_disabled_refuted.
