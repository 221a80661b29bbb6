(** C69: the interface to the Access Layer, versions of it, and the methods of IDSs for compatibility. *)
From Verif Require Import Base NcEntryModel NcEntryProps LowModel.

(** ** Versions: the spec reads a version as an endless sequence of numbers, with zeros after its end *)
Definition part (v : version) (i : nat) : nat := nth i v 0.
Definition same (v w : version) : Prop := forall i, part v i = part w i.
Definition newer (v w : version) : Prop := exists i, part w i < part v i /\ forall j, j < i -> part v j = part w j.

Lemma part_strip : forall v i, part (strip v) i = part v i.
Proof.
  unfold part. induction v as [|a v IH]; intros i; [reflexivity|]. cbn [strip].
  destruct (strip v) as [|b w] eqn:E.
  - destruct (a =? 0) eqn:Z; destruct i as [|i]; cbn.
    + apply Nat.eqb_eq in Z. auto.
    + rewrite <- IH. now destruct i.
    + reflexivity.
    + rewrite <- IH. now destruct i.
  - destruct i as [|i]; [reflexivity|]. cbn [nth]. apply IH.
Qed.
Lemma strip_last : forall v, strip v = [] \/ last (strip v) 0 <> 0.
Proof.
  induction v as [|a v IH]; [now left|]. cbn [strip]. destruct (strip v) as [|b w] eqn:E.
  - destruct (a =? 0) eqn:Z; [now left|]. right. cbn. now apply Nat.eqb_neq in Z.
  - right. destruct IH as [IH|IH]; [discriminate|exact IH].
Qed.
Lemma nonzero_part : forall b w, last (b :: w) 0 <> 0 -> exists i, 0 < part (b :: w) i.
Proof.
  intros b w. revert b. induction w as [|c w IH]; intros b H.
  - exists 0. cbn in *. lia.
  - destruct (IH c H) as (i & Hi). exists (S i). exact Hi.
Qed.
Definition canonical (v : list nat) : Prop := v = [] \/ last v 0 <> 0.
Lemma canonical_tail : forall a v, canonical (a :: v) -> canonical v.
Proof. intros a [|b v] H; [now left|]. right. destruct H as [H|H]; [discriminate|exact H]. Qed.
Lemma tuple_le_spec : forall v w, canonical v -> canonical w ->
  (tuple_le v w = true <-> same w v \/ newer w v).
Proof.
  induction v as [|a v IH]; intros w Cv Cw.
  - split; [intros _|reflexivity]. destruct w as [|b w]; [now left; intros i|].
    destruct Cw as [Cw|Cw]; [discriminate|]. right.
    assert (N : exists i, 0 < part (b :: w) i) by now apply nonzero_part.
    destruct N as (i & Hi). revert Hi. induction i as [i IHi] using (well_founded_induction lt_wf). intros Hi.
    destruct (List.existsb (fun j => negb (part (b :: w) j =? 0)) (seq 0 i)) eqn:E.
    + apply existsb_exists in E as (j & Hj & E). apply in_seq in Hj. apply negb_true_iff, Nat.eqb_neq in E. apply (IHi j); lia.
    + exists i. unfold part at 1. replace (nth i [] 0) with 0 by now destruct i. split; [exact Hi|].
      intros j Hj. unfold part at 2. replace (nth j [] 0) with 0 by now destruct j.
      destruct (Nat.eq_dec (part (b :: w) j) 0) as [Z|Z]; [exact Z|]. exfalso.
      assert (X : existsb (fun j => negb (part (b :: w) j =? 0)) (seq 0 i) = true).
      { apply existsb_exists. exists j. split; [apply in_seq; lia|]. now apply negb_true_iff, Nat.eqb_neq. }
      congruence.
  - destruct w as [|b w]; cbn [tuple_le].
    + split; [discriminate|]. intros H. exfalso. destruct Cv as [Cv|Cv]; [discriminate|].
      destruct (nonzero_part a v Cv) as (i & Hi). destruct H as [H|(k & Hk & _)].
      * specialize (H i). unfold part at 1 in H. replace (nth i [] 0) with 0 in H by now destruct i. lia.
      * unfold part at 2 in Hk. replace (nth k [] 0) with 0 in Hk by now destruct k. lia.
    + destruct (a =? b) eqn:E.
      * apply Nat.eqb_eq in E; subst b. rewrite (IH w (canonical_tail _ _ Cv) (canonical_tail _ _ Cw)). split.
        -- intros [H|(i & H1 & H2)]; [left|right].
           ++ intros [|i]; [reflexivity|apply H].
           ++ exists (S i). split; [exact H1|]. intros [|j] Hj; [reflexivity|]. apply (H2 j). lia.
        -- intros [H|(i & H1 & H2)]; [left|right].
           ++ intros i. apply (H (S i)).
           ++ destruct i as [|i]; [cbn in H1; lia|]. exists i. split; [exact H1|]. intros j Hj. apply (H2 (S j)). lia.
      * apply Nat.eqb_neq in E. rewrite Nat.ltb_lt. split.
        -- intros L. right. exists 0. split; [exact L|]. intros j Hj. lia.
        -- intros [H|([|i] & H1 & H2)].
           ++ specialize (H 0). cbn in H. congruence.
           ++ exact H1.
           ++ specialize (H2 0). cbn in H2. exfalso. apply E. symmetry. apply H2. lia.
Qed.
Lemma at_least_spec : forall v w, at_least v w = true <-> same v w \/ newer v w.
Proof.
  intros v w. unfold at_least. rewrite (tuple_le_spec _ _ (strip_last w) (strip_last v)). unfold same, newer.
  split; (intros [H|(i & H1 & H2)]; [left; intros i; specialize (H i)|right; exists i; split; [|intros j Hj; specialize (H2 j Hj)]]);
    rewrite ?part_strip in *; assumption.
Qed.

(** C69, comparisons: a version is at least another one iff they are the same up to zeros at the end, or the first number that differs is greater *)
Theorem C69_versions : forall v w, at_least v w = true <-> same v w \/ newer v w.
Proof. exact at_least_spec. Qed.
Theorem C69_total : forall v w, (at_least v w = true \/ at_least w v = true) /\ (at_least v w = true -> at_least w v = true -> same v w).
Proof.
  assert (T : forall v w, tuple_le v w = false -> tuple_le w v = true).
  { induction v as [|a v IH]; intros [|b w]; cbn; try easy. rewrite (Nat.eqb_sym b a). destruct (a =? b) eqn:E; [apply IH|].
    intros H. apply Nat.eqb_neq in E. apply Nat.ltb_ge in H. apply Nat.ltb_lt. lia. }
  intros v w. split.
  - unfold at_least. destruct (tuple_le (strip w) (strip v)) eqn:E; auto.
  - rewrite !at_least_spec. intros [H|(i & A & B)] [K|(k & C & D)]; try exact H; try (intros j; symmetry; now apply K).
    exfalso. destruct (Nat.lt_trichotomy i k) as [L|[L|L]].
    + specialize (D i L). lia.
    + subst. lia.
    + specialize (B k L). lia.
Qed.
Example C69_versions_ex :
  at_least [5; 1] [5; 1; 0] = true /\ at_least [5; 1; 0] [5; 1] = true /\ at_least [5; 10] [5; 9; 3] = true /\
  at_least [5; 0; 9] [5; 1] = false /\ at_least [6] [5; 1] = true.
Proof. repeat split. Qed.

(** ** The interface *)
Lemma some_eq : forall (A : Type) (x y : A), Some x = Some y -> x = y.
Proof. now intros A x y [= ->]. Qed.
Section Interface.
Variable F : Type.
Variable parse : str -> option version.
Definition public (m : str) : Prop := In m (map fst own).

Lemma lookup_map : forall (A B : Type) (g : str * A -> B) l m,
  alookup m (map (fun p => (fst p, g p)) l) = match alookup m l with Some b => Some (g (m, b)) | None => None end.
Proof.
  induction l as [|[k b] l IH]; intros m; [reflexivity|]. cbn [map alookup fst]. destruct (str_eqb m k) eqn:E; [|apply IH].
  apply str_eqb_eq in E; subst. reflexivity.
Qed.
Lemma lookup_in : forall (A : Type) (l : list (str * A)) m, In m (map fst l) -> exists b, alookup m l = Some b.
Proof.
  induction l as [|[k b] l IH]; intros m H; [easy|]. cbn. destruct (str_eqb m k) eqn:E; [eauto|]. apply IH.
  destruct H as [H|H]; [|exact H]. cbn in H. subst. now rewrite str_eqb_refl in E.
Qed.
Lemma lookup_notin : forall (A : Type) (l : list (str * A)) m, ~ In m (map fst l) -> alookup m l = None.
Proof.
  induction l as [|[k b] l IH]; intros m H; [easy|]. cbn. destruct (str_eqb m k) eqn:E.
  - apply str_eqb_eq in E; subst. exfalso. apply H. now left.
  - apply IH. intros K. apply H. now right.
Qed.

(** without the Access Layer every method of the interface raises the same error, get_al_version too *)
Theorem C69_without : forall i m, init parse (@None (module F)) = Some i -> public m ->
  call i m = RuntimeErr /\ al i = None /\ (forall v, guard i v = false).
Proof.
  intros i m H P. apply some_eq in H. rewrite <- H. split; [|now split]. unfold call. cbn [methods].
  rewrite (lookup_map _ _ (fun _ => NotAvailable F)). destruct (lookup_in _ _ _ P) as (b & ->). reflexivity.
Qed.

(** With it, a method is the function of the same name (with al_ before it) of the module whenever the module has one, whatever the version;
    otherwise it is one of our own, which calls nothing. *)
Theorem C69_calls : forall (l : module F) i m, init parse (Some l) = Some i -> public m ->
  (forall f, alookup (strs "al_" ++ m) (attrs l) = Some (Some f) -> call i m = Calls f) /\
  ((forall f, alookup (strs "al_" ++ m) (attrs l) <> Some (Some f)) ->
     (m <> strs "get_al_version" -> exists message, call i m = LLErr message) /\
     (m = strs "get_al_version" -> call i m = Gives (version_str i))) /\
  call i m <> RuntimeErr /\ call i m <> AttributeErr.
Proof.
  intros l i m H P. unfold init in H. destruct (parse _) as [v|]; [|discriminate].
  assert (M : methods i = map (fun p => (fst p, match alookup (strs "al_" ++ fst p) (attrs l) with Some (Some f) => Native F f | _ => Ours F (snd p) end)) own)
    by (apply some_eq in H; rewrite <- H; reflexivity).
  clear H. unfold call. rewrite M, (lookup_map _ _ (fun p => match alookup (strs "al_" ++ fst p) (attrs l) with Some (Some f) => Native F f | _ => Ours F (snd p) end)).
  destruct (lookup_in _ _ _ P) as (b & Hb). rewrite Hb. cbn [fst snd].
  assert (G : b = GiveVersion -> m = strs "get_al_version").
  { intros ->. unfold own in Hb. cbn [map fst snd] in Hb.
    repeat (cbn [alookup] in Hb; match type of Hb with context [str_eqb m ?k] => destruct (str_eqb m k) eqn:?E; [try discriminate Hb|] end);
      try discriminate Hb.
    match goal with E : str_eqb m _ = true |- _ => apply str_eqb_eq in E; exact E end. }
  assert (G2 : m = strs "get_al_version" -> b = GiveVersion) by (intros ->; vm_compute in Hb; congruence).
  destruct (alookup (strs "al_" ++ m) (attrs l)) as [[f|]|].
  - repeat split; try discriminate; [congruence| |]; intros; exfalso; match goal with K : forall f, _ |- _ => now destruct (K f) end.
  - repeat split; try discriminate; try (intros X; destruct b; eauto; exfalso; auto; fail); try (intros X; now rewrite (G2 X)); destruct b; discriminate.
  - repeat split; try discriminate; try (intros X; destruct b; eauto; exfalso; auto; fail); try (intros X; now rewrite (G2 X)); destruct b; discriminate.
Qed.
(** the version that the error names, for the methods that came after 5.0 *)
Theorem C69_needed : forall (l : module F) i m v, init parse (Some l) = Some i ->
  (m = strs "get_occurrences" /\ v = strs "5.1" \/ m = strs "begin_timerange_action" /\ v = strs "5.4") ->
  (forall f, alookup (strs "al_" ++ m) (attrs l) <> Some (Some f)) ->
  call i m = LLErr (strs "This function requires at least Access Layer version " ++ v ++ strs ", but the current version is " ++ version_str i).
Proof.
  intros l i m v H C N. unfold init in H. destruct (parse _) as [w|]; [|discriminate].
  assert (M : methods i = map (fun p => (fst p, match alookup (strs "al_" ++ fst p) (attrs l) with Some (Some f) => Native F f | _ => Ours F (snd p) end)) own)
    by (apply some_eq in H; rewrite <- H; reflexivity).
  clear H. unfold call. rewrite M, (lookup_map _ _ (fun p => match alookup (strs "al_" ++ fst p) (attrs l) with Some (Some f) => Native F f | _ => Ours F (snd p) end)).
  assert (B : alookup m own = Some (Needs v)) by (destruct C as [(-> & ->)|(-> & ->)]; reflexivity).
  rewrite B. cbn [fst snd]. destruct (alookup (strs "al_" ++ m) (attrs l)) as [[f|]|]; [now destruct (N f)|reflexivity|reflexivity].
Qed.
(** an attribute that is not a public method is not there *)
Theorem C69_others : forall low i m, init (F := F) parse low = Some i -> ~ public m -> call i m = AttributeErr.
Proof.
  intros low i m H P. apply lookup_notin in P. unfold call.
  destruct low as [l|]; unfold init in H; [destruct (parse _); [|discriminate]|]; apply some_eq in H; rewrite <- H; cbn [methods].
  - rewrite (lookup_map _ _ (fun p => match alookup (strs "al_" ++ fst p) (attrs l) with Some (Some f) => Native F f | _ => Ours F (snd p) end)).
    now rewrite P.
  - rewrite (lookup_map _ _ (fun _ => NotAvailable F)). now rewrite P.
Qed.
(** the version is what the module says, or 5.0.0 *)
Theorem C69_version : forall (l : module F) i, init parse (Some l) = Some i ->
  (forall s, al_version l = Some s -> version_str i = s) /\ (al_version l = None -> version_str i = strs "5.0.0") /\
  al i = parse (version_str i) /\ al i <> None.
Proof.
  intros l i H. unfold init in H. destruct (parse _) as [v|] eqn:E; [|discriminate]. apply some_eq in H. rewrite <- H. cbn [version_str al]. clear H.
  destruct (al_version l); repeat split; congruence.
Qed.
(** the command goes on iff the Access Layer is there and its version is new enough *)
Theorem C69_guard : forall low i needed, init (F := F) parse low = Some i ->
  (guard i needed = true <-> exists used, al i = Some used /\ (same used needed \/ newer used needed)).
Proof.
  intros low i needed _. unfold guard. destruct (al i) as [u|].
  - rewrite at_least_spec. split; [eauto|]. now intros (u' & [= <-] & H).
  - split; [discriminate|]. now intros (u & H & _).
Qed.
(** Warnings of a read with UDA.  With the Access Layer there is at most one. *)
Theorem C69_uda : forall (l : module F) i v mode lazy, init parse (Some l) = Some i -> al i = Some v ->
  let recent := same v [5; 5; 1] \/ newer v [5; 5; 1] in
  exists w, uda_warnings i mode lazy = Some w /\
    (forall hint, w = [SlowLazy hint] <-> lazy = true /\ mode <> Some (strs "none") /\ (hint = true <-> recent)) /\
    (forall u, w = [OldCore u] <-> u = v /\ mode = Some (strs "none") /\ ~ recent) /\
    length w <= 1.
Proof.
  intros l i v mode lazy _ V recent. unfold uda_warnings. rewrite V.
  assert (R : at_least v [5; 5; 1] = true <-> recent) by apply at_least_spec. destruct (at_least v [5; 5; 1]) eqn:E.
  all: assert (M : match mode with Some c => str_eqb c (strs "none") | None => false end = true <-> mode = Some (strs "none"))
    by (destruct mode as [c|]; [rewrite str_eqb_eq; split; congruence|split; discriminate]).
  all: destruct (match mode with Some c => str_eqb c (strs "none") | None => false end).
  all: destruct lazy; cbn [andb negb app]; eexists; (split; [reflexivity|]).
  all: assert (M1 := proj1 M); assert (M2 := proj2 M); assert (R1 := proj1 R); assert (R2 := proj2 R); clear M R.
  all: clearbody recent.
  all: split; [intros [|]|split; [intros u|cbn; lia]]; split; intros X; try discriminate X.
  all: try (injection X as <-); intuition (subst; try congruence; try discriminate).
Qed.
End Interface.

(** a module with a function for one method, one that is None, and a version *)
Definition sample_parse (s : str) : option version :=
  if str_eqb s (strs "5.4.1") then Some [5; 4; 1] else if str_eqb s (strs "5.0.0") then Some [5; 0; 0] else None.
Definition sample_module : module nat :=
  {| al_version := Some (strs "5.4.1"); attrs := [(strs "al_read_data", Some 7); (strs "al_get_occurrences", None)] |}.
Example C69_ex : exists i, init sample_parse (Some sample_module) = Some i /\
  call i (strs "read_data") = Calls 7 /\ call i (strs "write_data") = LLErr not_implemented /\
  call i (strs "get_al_version") = Gives (strs "5.4.1") /\
  call i (strs "get_occurrences")
    = LLErr (strs "This function requires at least Access Layer version 5.1, but the current version is 5.4.1") /\
  guard i [5; 1] = true /\ guard i [5; 5] = false /\
  uda_warnings i None true = Some [SlowLazy false] /\ uda_warnings i (Some (strs "none")) true = Some [OldCore [5; 4; 1]].
Proof. eexists. split; [vm_compute; reflexivity|]. repeat split; vm_compute; reflexivity. Qed.

(** Finding: the error for a missing method does not say which method is missing; it has the name of the Python module in its place *)
Theorem C69_message_refuted : exists (l : module nat) i m1 m2,
  init sample_parse (Some l) = Some i /\ public m1 /\ public m2 /\ m1 <> m2 /\
  call i m1 = LLErr not_implemented /\ call i m2 = LLErr not_implemented.
Proof.
  exists sample_module. eexists. exists (strs "write_data"), (strs "delete_data"). split; [vm_compute; reflexivity|].
  split; [right; right; right; right; left; reflexivity|]. split; [do 6 right; left; reflexivity|]. split; [discriminate|].
  split; vm_compute; reflexivity.
Qed.

(** ** Methods for compatibility *)
Section Compat.
Variables (I T : Type) (name_of : I -> str).
(** get, getSlice, put and putSlice are the methods of the data entry with the IDS as destination or source; without the Access Layer none of
    them works, whatever the entry (also a netCDF file) *)
Theorem C69_compat : forall (self : I) (m : method T) has entry,
  (has = false -> compat name_of has entry self m = Err CRuntime) /\
  (has = true -> entry = false -> compat name_of has entry self m = Err CNotImplemented) /\
  (has = true -> entry = true -> forall occ t interp,
     (m = MGet T occ -> compat name_of has entry self m = Ok (EGet I T (NStr (name_of self)) occ (Some self))) /\
     (m = MGetSlice T t interp occ -> compat name_of has entry self m = Ok (EGetSlice I T (NStr (name_of self)) t interp occ (Some self))) /\
     (m = MPut T occ -> compat name_of has entry self m = Ok (EPut I T self occ)) /\
     (m = MPutSlice T occ -> compat name_of has entry self m = Ok (EPutSlice I T self occ))).
Proof. intros self m has entry. repeat split; intros; subst; reflexivity. Qed.

(** delete_data with a name: which action is begun *)
Theorem C69_delete : forall known s n occ p, snd (delete_data (I := I) known s (NStr n) occ) = DBegin p <->
  is_open s = true /\ In n known /\ ((occ = 0%Z /\ p = n) \/ (occ <> 0%Z /\ p = (n ++ strs "/" ++ show_Z occ)%list)).
Proof.
  intros known s n occ p. unfold delete_data.
  assert (K : existsb (str_eqb n) known = true <-> In n known).
  { rewrite existsb_exists. split; [intros (x & Hx & E); apply str_eqb_eq in E; now subst|]. intros H. exists n. now rewrite str_eqb_refl. }
  destruct (is_open s); cbn [negb]; [|split; [discriminate|now intros (H & _)]].
  destruct (Z.eqb_spec occ 0) as [E0|E0]; destruct (existsb (str_eqb n) known); cbn [snd]; split.
  all: try (intros H; discriminate H).
  all: try (intros (_ & H & _); apply K in H; discriminate H).
  - intros H. assert (p = n) by congruence. repeat split; [now apply K|auto].
  - intros (_ & _ & [(_ & ->)|(A & _)]); [reflexivity|contradiction].
  - intros H. assert (p = (n ++ strs "/" ++ show_Z occ)%list) by (injection H as H; now rewrite <- H). repeat split; [now apply K|auto].
  - intros (_ & _ & [(A & _)|(_ & ->)]); [contradiction|reflexivity].
Qed.
(** lazy loaded data is let go first, also when the call then fails *)
Theorem C69_delete_lazy : forall known s (n : name I) occ, is_open s = true ->
  lazy_ctxs (fst (delete_data known s n occ)) = 0 /\ is_open (fst (delete_data known s n occ)) = true.
Proof.
  intros known s n occ H. unfold delete_data. rewrite H. cbn [negb].
  destruct (occ =? 0)%Z; destruct n as [t|i]; try destruct (existsb (str_eqb t) known); split; reflexivity.
Qed.
(** deleteData never deletes: on an open entry it raises TypeError for every IDS and occurrence *)
Theorem C69_never_deletes : forall known s (self : I) occ,
  exists s', run_delete known s (compat (T := T) name_of true true self (MDeleteData T occ))
             = Some (s', DErr (if is_open s then DType else DNotOpen)).
Proof.
  intros. unfold run_delete, compat, delete_data. cbn [negb]. destruct (is_open s); cbn [negb]; [|eauto].
  destruct (occ =? 0)%Z; eauto.
Qed.
End Compat.

(** Finding: deleteData does not do what delete_data does with the name of the IDS *)
Theorem C69_deleteData_refuted : exists (known : list str) (s : dstate) (self : str) occ p,
  snd (delete_data (I := str) known s (NStr self) occ) = DBegin p /\
  exists s', run_delete known s (compat (T := nat) (fun n => n) true true self (MDeleteData nat occ)) = Some (s', DErr DType).
Proof.
  exists [strs "core_profiles"], {| is_open := true; lazy_ctxs := 2 |}, (strs "core_profiles"), 1%Z, (strs "core_profiles/1").
  split; [vm_compute; reflexivity|]. eexists. vm_compute. reflexivity.
Qed.
Print Assumptions C69_versions.
Print Assumptions C69_total.
Print Assumptions C69_without.
Print Assumptions C69_calls.
Print Assumptions C69_needed.
Print Assumptions C69_others.
Print Assumptions C69_version.
Print Assumptions C69_guard.
Print Assumptions C69_uda.
Print Assumptions C69_message_refuted.
Print Assumptions C69_compat.
Print Assumptions C69_delete.
Print Assumptions C69_delete_lazy.
Print Assumptions C69_never_deletes.
Print Assumptions C69_deleteData_refuted.
