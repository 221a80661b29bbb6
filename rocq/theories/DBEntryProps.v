(** Property theorems about the data entry object (C30). *)
From Verif Require Import Base DBEntryModel.

(* ---- specification ---- *)

(** Whether an entry is open, seen from outside: operations and their outcomes only. *)
Definition outcome (r : result exn unit) : bool := match r with Ok _ => true | Err _ => false end.
Definition after (was : bool) (x : op * result exn unit) : bool :=
  match fst x with
  | OOpen _ | OEnter _ => was || outcome (snd x)
  | OClose _ | OExit _ => was && negb (outcome (snd x))
  | _ => was
  end.
Definition is_open (start : bool) (h : list (op * result exn unit)) : bool := fold_left after h start.

Definition data_op (o : op) : bool := match o with OGet _ _ | OPut _ _ _ | ODelete _ | OList _ _ => true | _ => false end.

(** A session with the backend: an implementation object is created, used, and closed at most once successfully, after which it is
    never used; sessions do not overlap. *)
Definition use_of (i : nat) (ev : event) : Prop := match ev with ECall j _ => j = i | EClose j ok => j = i /\ ok = false | EOpen _ => False end.
Inductive sessions : nat -> option nat -> list event -> Prop :=
| ses_none : sessions 0 None []
| ses_open : forall n l, sessions n None l -> sessions (S n) (Some n) (l ++ [EOpen n])
| ses_use : forall n i l ev, sessions n (Some i) l -> use_of i ev -> sessions n (Some i) (l ++ [ev])
| ses_close : forall n i l, sessions n (Some i) l -> sessions n None (l ++ [EClose i true]).

(* ---- proofs ---- *)

Section C30.
Variable known : list str.
Notation step := (step known).
Notation run := (run known).

Definition opened (e : entry) : bool := match impl e with Some _ => true | None => false end.
Definition entry_ok (e : entry) : Prop := sessions (next e) (impl e) (log e).

Lemma emit_ok : forall e i ev, entry_ok e -> impl e = Some i -> use_of i ev -> entry_ok (emit e ev).
Proof. intros e i ev H I U. unfold entry_ok in *. simpl. rewrite I in *. now apply ses_use. Qed.

(** Data operations leave the implementation object alone; if they use the backend, then through that object. *)
Definition quiet (e e' : entry) : Prop := impl e' = impl e /\ by_uri e' = by_uri e /\ ver e' = ver e /\ (entry_ok e -> entry_ok e').
Lemma quiet_refl : forall e, quiet e e.
Proof. unfold quiet; auto. Qed.
Lemma quiet_emit : forall e i k, impl e = Some i -> quiet e (emit e (ECall i k)).
Proof. intros e i k H. split; [|split; [|split]]; auto. intros O. eapply emit_ok; eauto. reflexivity. Qed.
Lemma quiet_trans : forall a b c, quiet a b -> quiet b c -> quiet a c.
Proof. unfold quiet. intros a b c (A & B & C & D) (E & F & G & H). split; [|split; [|split]]; try congruence. auto. Qed.

Lemma quiet_get : forall e a o, quiet e (fst (get known e a o)).
Proof.
  intros e a o. unfold get. destruct (impl e) as [i|] eqn:I; [|apply quiet_refl].
  destruct (g_lazy a && _); [apply quiet_refl|]. destruct (negb (g_exists a)); [apply quiet_refl|].
  assert (Q := quiet_emit e i KVersion I). destruct (o_version o) as [s|]; auto. destruct (check_version known e a s) as [o0|x0]; auto.
  destruct (check_target e a o0); auto. simpl. eapply quiet_trans; [exact Q|apply quiet_emit; exact I].
Qed.

Lemma quiet_get_all : forall ex os e, quiet e (fst (get_all known e ex os)).
Proof.
  induction os as [|o os IH]; intros e; [apply quiet_refl|]. cbn [get_all].
  pose proof (quiet_get e {| g_lazy := true; g_dest := None; g_exists := ex; g_auto := true; g_ignore := false |} o) as Q.
  destruct (get known e _ o) as [e' [u|x]]; auto. eapply quiet_trans; [exact Q|apply IH].
Qed.

Lemma quiet_data : forall e o, data_op o = true -> quiet e (fst (step e o)).
Proof.
  intros e [ok|ok|ok|ok|a r|x s ok|ok|ok p] D; try discriminate D; cbn [DBEntryModel.step].
  - apply quiet_get.
  - unfold put. destruct (impl e) as [i|] eqn:I; [|apply quiet_refl].
    repeat (match goal with |- context [if ?c then (?a, ?b, ?d) else _] => destruct c; [apply quiet_refl|] end).
    set (x1 := if i_const x && negb (i_mode x =? 2)%Z then set_mode x 2 else x). cbv zeta.
    cbn [fst]. destruct (i_put x1).
    + eapply quiet_trans; [apply quiet_emit; exact I|apply quiet_emit; exact I].
    + now apply quiet_emit.
  - unfold delete_data. destruct (impl e) as [i|] eqn:I; [now apply quiet_emit|apply quiet_refl].
  - unfold list_all. destruct (impl e) as [i|] eqn:I; [|apply quiet_refl]. pose proof (quiet_emit e i KList I) as Q.
    destruct (negb ok); auto. destruct p as [[ex os]|]; auto. eapply quiet_trans; [exact Q|apply quiet_get_all].
Qed.

Lemma step_spec : forall e o, entry_ok e -> let e' := fst (step e o) in
  entry_ok e' /\ opened e' = after (opened e) (o, snd (step e o)) /\ by_uri e' = by_uri e.
Proof.
  intros e o H. cbv zeta. destruct (data_op o) eqn:D.
  - destruct (quiet_data e o D) as (A & B & C & E). split; [auto|]. split; auto. unfold opened. rewrite A. destruct o; try discriminate D; reflexivity.
  - unfold entry_ok, opened in *. destruct o as [ok|ok|ok|ok|a r|x s ok|ok|ok p]; try discriminate D; cbn [DBEntryModel.step]; unfold enter, exit_, open_pulse, close, after; cbn [fst snd];
      destruct (impl e) as [i|] eqn:I; try destruct (by_uri e) eqn:U; destruct ok; cbn; rewrite ?I, ?U; split; auto;
      try (apply ses_open; auto); try (apply ses_close; auto); try (apply ses_use; [auto|cbn; auto]).
Qed.

Lemma run_app : forall os e o, run e (os ++ [o]) = let (e1, rs) := run e os in let (e2, r) := step e1 o in (e2, rs ++ [r]).
Proof.
  induction os as [|x os IH]; simpl; intros e o; [destruct (step e o); auto|]. destruct (step e x) as [e1 r]. rewrite IH.
  destruct (run e1 os) as [e2 rs]. destruct (step e2 o). reflexivity.
Qed.
Lemma run_len : forall os e, length (snd (run e os)) = length os.
Proof. induction os as [|x os IH]; simpl; intros e; auto. destruct (step e x) as [e1 r]. specialize (IH e1). destruct (run e1 os). simpl in *. lia. Qed.

Lemma combine_snoc {A B} : forall (l : list A) (m : list B) a b, length l = length m -> combine (l ++ [a]) (m ++ [b]) = combine l m ++ [(a, b)].
Proof. induction l as [|x l IH]; intros [|y m] a b H; simpl in *; auto; try discriminate. f_equal. auto. Qed.

Lemma run_spec : forall os e, entry_ok e ->
  entry_ok (fst (run e os)) /\ opened (fst (run e os)) = is_open (opened e) (combine os (snd (run e os))) /\ by_uri (fst (run e os)) = by_uri e.
Proof.
  intros os e H. induction os as [|o os IH] using rev_ind; [auto|]. rewrite run_app. pose proof (run_len os e) as L. destruct (run e os) as [e1 rs].
  cbn [fst snd] in *. destruct IH as (A & B & C). pose proof (step_spec e1 o A) as (D & E & F). destruct (step e1 o) as [e2 r]. cbn [fst snd] in *.
  split; auto. split; [|congruence]. rewrite combine_snoc by auto. unfold is_open. rewrite fold_left_app. simpl. unfold is_open in B. rewrite <- B. exact E.
Qed.

Lemma construct_ok : forall uri v ok e, construct uri v ok = Some e -> entry_ok e /\ opened e = uri /\ by_uri e = uri.
Proof.
  intros uri v ok e H. unfold construct in H. destruct uri; [destruct ok; [|discriminate]|]; injection H as <-; unfold entry_ok; simpl; split; auto; try constructor.
  apply (ses_open 0 []). constructor.
Qed.

(** At any time the entry holds an implementation object iff, by the outcomes of the operations so far, it is open. *)
Theorem C30_open_iff : forall uri v ok e os, construct uri v ok = Some e ->
  let h := combine os (snd (run e os)) in
  (impl (fst (run e os)) <> None <-> is_open uri h = true).
Proof.
  intros uri v ok e os H h. destruct (construct_ok uri v ok e H) as (A & B & _). destruct (run_spec os e A) as (_ & C & _).
  rewrite B in C. fold h in C. rewrite <- C. unfold opened. destruct (impl _); intuition congruence.
Qed.

(** Data operations work iff the entry is open; otherwise they are refused without touching the backend. *)
Theorem C30_data : forall uri v ok e os o, construct uri v ok = Some e -> data_op o = true ->
  let e1 := fst (run e os) in let h := combine os (snd (run e os)) in
  (is_open uri h = false -> step e1 o = (e1, Err NotOpen)) /\ (is_open uri h = true -> snd (step e1 o) <> Err NotOpen).
Proof.
  intros uri v ok e os o H D e1 h. destruct (construct_ok uri v ok e H) as (A & B & _). destruct (run_spec os e A) as (_ & C & _).
  rewrite B in C. fold h e1 in C. rewrite <- C. unfold opened. split; intros O; destruct (impl e1) as [i|] eqn:I; try discriminate O.
  - destruct o; try discriminate D; simpl; unfold get, put, delete_data, list_all; rewrite I; reflexivity.
  - assert (G : forall e a r, impl e <> None -> snd (get known e a r) <> Err NotOpen).
    { clear. intros e a r N. unfold get. destruct (impl e) as [i|]; [|congruence].
      destruct (g_lazy a && _); [discriminate|]. destruct (negb (g_exists a)); [discriminate|]. destruct (o_version r); [|discriminate].
      unfold check_version. destruct s; simpl.
      - destruct (o_get r); discriminate.
      - match goal with |- context [if ?c then _ else _] => destruct c end.
        + destruct (g_ignore a); [simpl; destruct (o_get r); discriminate|discriminate].
        + unfold check_target. repeat match goal with |- context [if ?c then _ else _] => destruct c; try discriminate end. }
    destruct o as [|?|?|?|a r|x s k|k|k p]; try discriminate D; simpl.
    + apply G. congruence.
    + unfold put. rewrite I. cbv zeta. set (x1 := if i_const x && negb (i_mode x =? 2)%Z then set_mode x 2 else x).
      repeat match goal with |- context [if ?c then (?a, ?b, ?d) else _] => destruct c; try discriminate end.
      destruct k; discriminate.
    + unfold delete_data. rewrite I. destruct k; discriminate.
    + unfold list_all. rewrite I. destruct k; [|discriminate]. simpl. destruct p as [[ex rs]|]; [|discriminate].
      assert (N : impl (emit e1 (ECall i KList)) <> None) by (simpl; congruence). revert N. generalize (emit e1 (ECall i KList)) as e2.
      induction rs as [|r rs IH]; intros e2 N; [discriminate|]. cbn [get_all].
      set (a := {| g_lazy := true; g_dest := None; g_exists := ex; g_auto := true; g_ignore := false |}).
      pose proof (G e2 a r N) as G'. pose proof (quiet_get e2 a r) as (Q & _). destruct (get known e2 a r) as [e3 [u|y]].
      * apply IH; auto. simpl in Q. congruence.
      * exact G'.
Qed.

(** The backend sees sessions that do not overlap: nothing is called before the creation or after the successful close of an
    implementation object, and at most one of them is live. *)
Theorem C30_sessions : forall uri v ok e os, construct uri v ok = Some e ->
  let e1 := fst (run e os) in sessions (next e1) (impl e1) (log e1).
Proof. intros uri v ok e os H. destruct (construct_ok uri v ok e H) as (A & _). exact (proj1 (run_spec os e A)). Qed.

(** Closing a closed entry does nothing; after a successful close the entry is closed. *)
Theorem C30_close : forall e ok, (impl e = None -> close e ok = (e, Ok tt)) /\
  (snd (close e ok) = Ok tt -> impl (fst (close e ok)) = None /\ forall ok', close (fst (close e ok)) ok' = (fst (close e ok), Ok tt)).
Proof.
  intros e ok. unfold close. destruct (impl e) as [i|] eqn:I; simpl; split; intros H; auto; try discriminate.
  - destruct ok; [|discriminate]. simpl. auto.
  - rewrite I. auto.
Qed.

(** A failed open or create changes nothing: the entry is closed as before (or open as before, if that was the reason). *)
Theorem C30_failed_open : forall e ok x, snd (open_pulse e ok) = Err x -> fst (open_pulse e ok) = e /\ (x <> AlreadyOpen -> impl e = None).
Proof. intros e ok x. unfold open_pulse. destruct (impl e); simpl; [intros H; injection H as <-; split; congruence|]. destruct (by_uri e); [auto|]. destruct ok; simpl; auto. discriminate. Qed.

(** An entry created with an URI cannot be used again after it was closed. *)
Theorem C30_uri_once : forall v e os, construct true v true = Some e ->
  impl (fst (run e os)) = None -> forall os', impl (fst (run (fst (run e os)) os')) = None.
Proof.
  intros v e os H N os'. destruct (construct_ok true v true e H) as (A & _ & U). destruct (run_spec os e A) as (O & _ & U').
  rewrite U in U'. clear A U H. revert O N U'. generalize (fst (run e os)) as e1. induction os' as [|o os' IH]; intros e1 O N U; auto.
  cbn [DBEntryModel.run]. assert (G : impl (fst (step e1 o)) = None).
  { destruct (data_op o) eqn:D; [rewrite (proj1 (quiet_data e1 o D)); auto|].
    destruct o; try discriminate D; simpl; unfold enter, exit_, open_pulse, close; rewrite N, ?U; auto. }
  destruct (step_spec e1 o O) as (O' & _ & U'). destruct (step e1 o) as [e2 r]. cbn [fst snd] in *.
  specialize (IH e2 O' G (eq_trans U' U)). destruct (run e2 os'). exact IH.
Qed.

(** [with entry: body]: whatever the body does, the entry is closed afterwards, unless closing itself raises. *)
Theorem C30_with : forall e ok body ok', let e1 := fst (run (fst (enter e ok)) body) in
  snd (exit_ e1 ok') = Ok tt -> impl (fst (exit_ e1 ok')) = None.
Proof. intros e ok body ok' e1 H. unfold exit_ in *. apply (proj2 (C30_close e1 ok') H). Qed.

(** When the close of the backend raises, the entry stays open: open is refused and data operations still reach the backend. *)
Theorem C30_failed_close_refuted : exists v e, construct false v true = Some e /\
  let e1 := fst (run e [OOpen true; OClose false]) in
  impl e1 <> None /\ snd (step e1 (OOpen true)) = Err AlreadyOpen /\ snd (step e1 (ODelete true)) = Ok tt.
Proof. exists (strs "4.0.0"). eexists. split; [reflexivity|]. vm_compute. repeat split; auto. discriminate. Qed.

(** What reaches the backend by [put]: never a lazy or invalid IDS; the time mode is valid, 2 for constant IDSs, and not 2 for slices;
    version_put carries the version of the entry. *)
Theorem C30_put : forall e x slice ok e' x' r, put e x slice ok = (e', x', r) ->
  (forall i, In (ECall i KPut) (log e') -> In (ECall i KPut) (log e) \/
    impl e = Some i /\ i_lazy x = false /\ i_valid x = true /\ In (i_mode x') [0; 1; 2]%Z /\ (i_const x = true -> i_mode x' = 2%Z) /\
    (i_const x = false -> i_mode x' = i_mode x) /\ (slice = true -> i_mode x' <> 2%Z) /\ i_put x' = option_map (fun _ => ver e) (i_put x)) /\
  (r = Ok tt -> ok = true /\ exists i, impl e = Some i /\ log e' = log e ++ (match i_put x with Some _ => [ECall i KAlVersion] | None => [] end) ++ [ECall i KPut]).
Proof.
  intros e x slice ok e' x' r H. unfold put in H. destruct (impl e) as [i|] eqn:I; [|injection H as <- <- <-; split; auto; discriminate].
  destruct (i_lazy x) eqn:L; [injection H as <- <- <-; split; auto; discriminate|].
  destruct (i_valid x) eqn:V; simpl in H; [|injection H as <- <- <-; split; auto; discriminate].
  destruct ((i_mode x =? 0)%Z || ((i_mode x =? 1)%Z || ((i_mode x =? 2)%Z || false))) eqn:M; simpl in H; [|injection H as <- <- <-; split; auto; discriminate].
  set (x1 := if i_const x && negb (i_mode x =? 2)%Z then set_mode x 2 else x) in H.
  destruct (slice && (i_mode x1 =? 2)%Z) eqn:S; [injection H as <- <- <-; split; auto; discriminate|].
  assert (P : i_put x1 = i_put x) by (unfold x1; destruct (i_const x && _); auto).
  assert (M1 : (i_const x = true -> i_mode x1 = 2%Z) /\ (i_const x = false -> i_mode x1 = i_mode x) /\ In (i_mode x1) [0; 1; 2]%Z).
  { unfold x1. assert (In (i_mode x) [0; 1; 2]%Z) by (simpl; lia). destruct (i_const x) eqn:Cx; simpl.
    - destruct (i_mode x =? 2)%Z eqn:E2; simpl; [apply Z.eqb_eq in E2|]; repeat split; auto; intros; try discriminate; simpl; lia.
    - repeat split; auto; discriminate. }
  injection H as <- <- <-. split.
  - intros j J. simpl in J. apply in_app_iff in J. destruct J as [J|[J|[]]].
    + left. destruct (i_put x1); auto. simpl in J. apply in_app_iff in J. destruct J as [J|[J|[]]]; auto. discriminate.
    + right. injection J as <-. simpl. rewrite P. destruct M1 as (A & B & Cc). repeat split; auto.
      intros ->. simpl in S. lia.
  - intros R. split; [destruct ok; congruence|]. exists i. split; auto. rewrite <- P. destruct (i_put x1); simpl; auto. now rewrite <- app_assoc.
Qed.
End C30.
Print Assumptions C30_open_iff.
Print Assumptions C30_data.
Print Assumptions C30_sessions.
Print Assumptions C30_close.
Print Assumptions C30_failed_open.
Print Assumptions C30_uri_once.
Print Assumptions C30_with.
Print Assumptions C30_failed_close_refuted.
Print Assumptions C30_put.

(** A refused put_slice of a constant IDS has already changed its time mode. *)
Theorem C30_refused_put_changes_ids_refuted : exists e x e' x' r, put e x true true = (e', x', Err r) /\ log e' = log e /\ i_mode x' <> i_mode x.
Proof.
  exists {| impl := Some 0; by_uri := true; ver := strs "4.0.0"; next := 1; log := [EOpen 0] |}.
  exists {| i_lazy := false; i_valid := true; i_mode := 1; i_const := true; i_put := None |}. eexists. eexists. eexists. split; [reflexivity|]. split; [reflexivity|]. discriminate.
Qed.
Print Assumptions C30_refused_put_changes_ids_refuted.

(** A destination in another version of the dictionary than the entry: data stored in the entry's own version cannot be read. *)
Theorem C30_destination_refuted : exists known e a o, impl e <> None /\ o_version o = Some (ver e) /\ existsb (str_eqb (ver e)) known = true /\
  major (ver e) = match g_dest a with Some d => major d | None => [] end /\ snd (get known e a o) = Err SameVersions.
Proof.
  exists [strs "4.0.0"; strs "4.1.0"], {| impl := Some 0; by_uri := true; ver := strs "4.0.0"; next := 1; log := [EOpen 0] |}.
  exists {| g_lazy := false; g_dest := Some (strs "4.1.0"); g_exists := true; g_auto := true; g_ignore := false |}.
  exists {| o_version := Some (strs "4.0.0"); o_get := true |}. vm_compute. repeat split; discriminate.
Qed.
Print Assumptions C30_destination_refuted.

(** Without a destination, or with one of the entry's version, that error does not occur. *)
Theorem C30_get_no_type_error : forall known e a o, (g_dest a = None \/ g_dest a = Some (ver e)) -> snd (get known e a o) <> Err SameVersions.
Proof.
  intros known e a o H. unfold get. destruct (impl e); [|discriminate]. destruct (g_lazy a && _); [discriminate|]. destruct (negb (g_exists a)); [discriminate|].
  destruct (o_version o) as [v|]; [|discriminate]. destruct (check_version known e a v) as [dd|x] eqn:Cv.
  - unfold check_target. destruct dd as [w|]; [|simpl; destruct (o_get o); discriminate].
    unfold target_version. destruct H as [-> | ->].
    + destruct (g_auto a).
      * destruct (str_eqb w (ver e)) eqn:E; [simpl; destruct (o_get o); discriminate|]. destruct (negb _); [discriminate|]. simpl; destruct (o_get o); discriminate.
      * rewrite str_eqb_refl. simpl; destruct (o_get o); discriminate.
    + destruct (str_eqb w (ver e)) eqn:E; [simpl; destruct (o_get o); discriminate|]. destruct (negb _); [discriminate|]. simpl; destruct (o_get o); discriminate.
  - unfold check_version in Cv. destruct v; [discriminate|]. destruct (negb _ && _) in Cv; [|discriminate]. destruct (g_ignore a); [discriminate|]. injection Cv as <-. discriminate.
Qed.
Print Assumptions C30_get_no_type_error.

(** What a get asks of the backend: the version first, and the data only of an IDS that exists, in a version that is known (or not to be
    looked at), and not both lazily and into a destination.  It returns only if the backend did what it was asked. *)
Theorem C30_get : forall known e a o e' r, get known e a o = (e', r) ->
  impl e' = impl e /\
  (forall i, In (ECall i KGet) (log e') -> In (ECall i KGet) (log e) \/
     impl e = Some i /\ g_exists a = true /\ (g_lazy a = true -> g_dest a = None) /\
     exists v, o_version o = Some v /\ (v = [] \/ v = ver e \/ In v known \/ g_ignore a = true)) /\
  (r = Ok tt -> o_get o = true /\ exists i, impl e = Some i /\ log e' = (log e ++ [ECall i KVersion; ECall i KGet])%list).
Proof.
  intros known e a o e' r H. unfold get in H. destruct (impl e) as [i|] eqn:I; [|injection H as <- <-; repeat split; auto; discriminate].
  destruct (g_lazy a && match g_dest a with Some _ => true | None => false end) eqn:L; [injection H as <- <-; repeat split; auto; discriminate|].
  destruct (g_exists a) eqn:X; cbn [negb] in H; [|injection H as <- <-; repeat split; auto; discriminate].
  assert (V : forall j, In (ECall j KGet) (log e ++ [ECall i KVersion]) -> In (ECall j KGet) (log e)).
  { intros j J. apply in_app_iff in J. destruct J as [J|[J|[]]]; [exact J|discriminate]. }
  destruct (o_version o) as [v|] eqn:O; [|injection H as <- <-; repeat split; auto; discriminate].
  destruct (check_version known e a v) as [dd|x] eqn:Cv; [|injection H as <- <-; repeat split; auto; discriminate].
  destruct (check_target e a dd) as [b|x]; [|injection H as <- <-; repeat split; auto; discriminate].
  injection H as <- <-. split; [exact I|]. split.
  - intros j J. cbn in J. apply in_app_iff in J. destruct J as [J|[J|[]]]; [left; now apply V|]. injection J as <-. right.
    repeat split; auto.
    + intros Lz. rewrite Lz in L. destruct (g_dest a); [discriminate|reflexivity].
    + exists v. split; [reflexivity|]. unfold check_version in Cv. destruct v as [|c v]; [now left|]. right.
      destruct (str_eqb (c :: v) (ver e)) eqn:E1; [left; now apply str_eqb_eq|]. right.
      destruct (existsb (str_eqb (c :: v)) known) eqn:E2.
      * left. apply existsb_exists in E2 as (k & K & E). apply str_eqb_eq in E. now rewrite E.
      * right. cbn [negb andb] in Cv. destruct (g_ignore a); [reflexivity|discriminate].
  - intros R. split; [destruct (o_get o); congruence|]. exists i. split; [reflexivity|]. cbn. now rewrite <- app_assoc.
Qed.
Print Assumptions C30_get.
Example C30_get_ex : exists e, construct true (strs "4.0.0") true = Some e /\
  get [strs "4.1.0"] e {| g_lazy := true; g_dest := None; g_exists := true; g_auto := true; g_ignore := false |} {| o_version := Some (strs "4.1.0"); o_get := true |}
  = ({| impl := Some 0; by_uri := true; ver := strs "4.0.0"; next := 1; log := [EOpen 0; ECall 0 KVersion; ECall 0 KGet] |}, Ok tt).
Proof. eexists. split; reflexivity. Qed.

Example ex_history : exists e, construct false (strs "4.0.0") true = Some e /\
  log (fst (run [] e [ODelete true; OOpen false; OOpen true; ODelete true; OClose true; OClose true; OEnter true; OList true None; OExit true])) =
  [EOpen 0; ECall 0 KDelete; EClose 0 true; EOpen 1; ECall 1 KList; EClose 1 true].
Proof. eexists. split; [reflexivity|]. reflexivity. Qed.
