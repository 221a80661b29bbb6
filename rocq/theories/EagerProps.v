(** C63: how get, put, read_dd_version and delete_data of a data entry use the Access Layer, whatever the Access Layer answers. *)
From Verif Require Import Base TreeModel TreeSpec TreeProofs VmapModel EagerModel EagerSpec EagerProofs EagerProofs2 EagerProofs3 EagerProofs4.
From Verif Require StoreModel NcEntryModel NcEntryProps.
Import StoreModel (place, store, s_data, is_mode, apply_all, empty_store).

(** * Any sequence of operations *)
Section Ops.
Variable answer : list ev -> request -> reply.
Variable uda : bool.
Local Notation step := (step answer uda).
Local Notation steps := (steps answer uda).

Lemma step_run : forall o w, arun [] (tr w) = Some [] -> regular answer (tr w) ->
  exists l, tr (fst (step o w)) = tr w ++ l /\ arun [] l = Some [] /\ regular answer (tr w ++ l) /\
    match o with ODelete _ => snd (step o w) = Err (if forallb fine l then BadArguments else lowlevel) | _ => halted l (snd (step o w)) end.
Proof.
  intros o w A R. pose proof (op_run_ok answer uda o w) as E. pose proof (keeps_op answer uda o (tr w) R) as K.
  assert (Et : tr (fst (step o w)) = fst (op_run answer uda o (tr w))) by (rewrite <- E; reflexivity).
  assert (Er : snd (step o w) = snd (op_run answer uda o (tr w))) by (rewrite <- E; reflexivity).
  assert (C : (exists path, o = ODelete path) \/ forall path, o <> ODelete path) by (destruct o; eauto; right; congruence).
  destruct C as [[path ->]|N].
  - destruct (delete_trace answer path (tr w)) as (l & F1 & A1 & _ & S1). exists l. rewrite Et, Er. cbn [op_run] in *. rewrite F1 in *. auto.
  - destruct (op_tri answer uda o (tr w) N) as (l & F' & F1 & A1 & H1 & ->). exists l. rewrite Et, Er. rewrite F1 in *. split; [reflexivity|]. split; [assumption|]. split; [assumption|].
    destruct o; auto. exfalso. eapply N; reflexivity.
Qed.
Lemma steps_inv : forall ops w, arun [] (tr w) = Some [] -> regular answer (tr w) -> arun [] (tr (steps ops w)) = Some [] /\ regular answer (tr (steps ops w)).
Proof.
  induction ops as [|o ops IH]; intros w A R; auto. cbn [EagerModel.steps]. destruct (step_run o w A R) as (l & E & A1 & R1 & _). apply IH.
  - now rewrite E, arun_app, A.
  - now rewrite E.
Qed.
Lemma start_inv : forall ops, arun [] (tr (steps ops start)) = Some [] /\ regular answer (tr (steps ops start)).
Proof. intros ops. apply steps_inv; auto. apply regular_nil. Qed.
End Ops.

(** The contexts are used by the rules (see [astep]) and none is left open, whatever calls fail. *)
Theorem C63_discipline : forall answer uda ops, arun [] (tr (steps answer uda ops start)) = Some [].
Proof. intros. apply start_inv. Qed.
Print Assumptions C63_discipline.

Definition occ (c : cid) (F : list frame) : nat := length (filter (fun f => Nat.eqb c (fid f)) F).
Lemma count_balance : forall c l F F', arun F l = Some F' -> count (ends c) l + occ c F' = count (opens c) l + occ c F.
Proof.
  intros c. induction l as [|[q r] l IH]; intros F F' H; cbn [arun] in H; [injection H as <-; auto|]. destruct (astep F (q, r)) as [F1|] eqn:St; [|discriminate].
  specialize (IH _ _ H). unfold count in *. cbn [filter].
  assert (G : length (filter (ends c) [(q, r)]) + occ c F1 = length (filter (opens c) [(q, r)]) + occ c F).
  { clear IH H. unfold occ. destruct q; cbn [astep filter ends opens] in *.
    - destruct F; [|discriminate]. injection St as <-. destruct (r_ok r); cbn; destruct (c =? new); cbn; auto.
    - destruct (usable F c0); [|discriminate]. injection St as <-. destruct (r_ok r); cbn; destruct (c =? new); cbn; auto.
    - destruct (usable F c0 && _); [|discriminate]. injection St as <-. auto.
    - destruct (usable F c0 && _); [|discriminate]. injection St as <-. auto.
    - destruct F as [|[d a []|] [|]]; try discriminate. destruct (c0 =? d); [|discriminate]. injection St as <-. auto.
    - destruct F as [|[|d pl n i] F]; try discriminate. destruct (_ && _ && _); [|discriminate]. injection St as <-. destruct (r_ok r); cbn; destruct (c =? d); reflexivity.
    - destruct F as [|f F]; [discriminate|]. destruct (c0 =? fid f) eqn:E; [|discriminate]. injection St as <-. apply Nat.eqb_eq in E. rewrite E.
      cbn [filter]. destruct (c =? fid f); cbn; lia. }
  cbn [filter] in G. destruct (ends c (q, r)), (opens c (q, r)); cbn [length] in *; lia.
Qed.
Lemma opens_once : forall answer c t, regular answer t -> count (opens c) t <= 1 /\ (count (opens c) t = 1 -> c <= length t).
Proof.
  intros answer c t. induction t as [|[q r] t IH] using rev_ind; intros R; [cbn; lia|].
  assert (R' : regular answer t). { intros a q' r' b E. apply (R a q' r' (b ++ [(q, r)])). now rewrite E, <- app_assoc. }
  destruct (R t q r [] eq_refl) as [_ N]. destruct (IH R') as [I1 I2]. unfold count in *. rewrite filter_app, app_length, app_length. cbn [filter length].
  destruct (opens c (q, r)) eqn:O; cbn [length]; [|lia].
  assert (c = S (length t)) by (destruct q; cbn in O; try discriminate; apply andb_true_iff in O as [O _]; apply Nat.eqb_eq in O; subst; apply N; reflexivity). lia.
Qed.
(** Every context that was opened is ended exactly once. *)
Theorem C63_ended_once : forall answer uda ops c, let t := tr (steps answer uda ops start) in count (opens c) t <= 1 /\ count (ends c) t = count (opens c) t.
Proof.
  intros answer uda ops c t. destruct (start_inv answer uda ops) as [A R]. fold t in A, R. split; [now apply (opens_once answer)|].
  pose proof (count_balance c _ _ _ A). cbn in *. lia.
Qed.
Print Assumptions C63_ended_once.

(** After a call that fails only contexts are ended, and the failure is reported (see C63_write_error_refuted for how); without a failed
    call no error of the Access Layer is reported. *)
Theorem C63_stops : forall answer uda ops o, (forall path, o <> ODelete path) -> let w := steps answer uda ops start in
  exists l, tr (fst (step answer uda o w)) = tr w ++ l /\ let r := snd (step answer uda o w) in
  ((forallb fine l = true /\ r <> Err (Own StoreModel.Lowlevel) /\ r <> Err BadArguments) \/
   exists a q rp b, l = a ++ (q, rp) :: b /\ forallb fine a = true /\ r_ok rp = false /\ (forall c, q <> QEnd c) /\ forallb is_end b = true /\
     r = Err (match q with QWrite _ _ _ => BadArguments | _ => Own StoreModel.Lowlevel end)).
Proof.
  intros answer uda ops o N w. destruct (start_inv answer uda ops) as [A R]. fold w in A, R. destruct (step_run answer uda o w A R) as (l & E & _ & _ & H). exists l. split; auto. cbv zeta.
  assert (Ha : halted l (snd (step answer uda o w))) by (destruct o; auto; exfalso; eapply N; reflexivity). destruct Ha as [[Fi I]|(a & q & rp & b & -> & Fa & Fq & Eb & Er)].
  - left. split; auto. split; intros X; destruct (I _ X); congruence.
  - right. exists a, q, rp, b. unfold fine in Fq. apply orb_false_iff in Fq as [F1 F2]. repeat split; auto. intros c ->. discriminate.
Qed.
Print Assumptions C63_stops.

(** * Reading *)
(** A get, get_slice, get_sample or read_dd_version changes nothing in the database. *)
Theorem C63_read_only : forall answer uda ops o l, let w := steps answer uda ops start in
  match o with OGet _ _ _ _ _ _ _ | OVersion _ => True | _ => False end ->
  tr (fst (step answer uda o w)) = tr w ++ l -> forall d p, drun d [] l p = d p.
Proof.
  intros answer uda ops o l w K E. pose proof (op_run_ok answer uda o w) as Eo.
  assert (Et : tr (fst (step answer uda o w)) = fst (op_run answer uda o (tr w))) by (rewrite <- Eo; reflexivity). rewrite Et in E.
  assert (X : exists l', fst (op_run answer uda o (tr w)) = tr w ++ l' /\ still [] l').
  { destruct o; try contradiction; cbn [op_run].
    - destruct (get_tri answer uda path constant ps dynamic xml_tbp nbc m (tr w)) as (l' & F' & H1 & _ & _ & _ & S). eauto.
    - destruct (version_tri answer uda path (tr w)) as (l' & F' & H1 & _ & _ & _ & S). eauto. }
  destruct X as (l' & E' & S). rewrite E in E'. apply app_inv_head in E'. now subst.
Qed.
Print Assumptions C63_read_only.

(** With a database that does what the calls say, a get gives what StoreModel's get gives for the stored occurrence (see C31 and C42 for
    what that is); get_slice and get_sample give it for what the Access Layer shows of the occurrence for these parameters, with the time
    mode of the whole occurrence.  An unknown interpolation method is refused. *)
Theorem C63_get : forall view d0 uda ops path constant ps dynamic xml_tbp nbc m, let w := steps (ideal view d0) uda ops start in
  let s := drun d0 [] (tr w) path in
  snd (step (ideal view d0) uda (OGet path constant ps dynamic xml_tbp nbc m) w) =
  match StoreModel.read_mode s with
  | Err e => Err (Own e)
  | Ok z =>
    if negb (is_mode z) then Err (Own StoreModel.TimeMode) else
    let data (s' : store) := match StoreModel.get_children dynamic xml_tbp nbc z s' m with Ok n => Ok (Got n) | Err e => Err (Own e) end in
    if constant then data s else
    match ps with
    | PAll => data s
    | PSlice time Unknown => Err BadMethod
    | PSlice time method => data (view (ASlice path (Some time) method) s)
    | PSample tmin tmax dtime method => data (view (ARange path tmin tmax dtime method) s)
    end
  end.
Proof.
  intros view d0 uda ops path constant ps dynamic xml_tbp nbc m w s. destruct (start_inv (ideal view d0) uda ops) as [A R]. fold w in A, R.
  pose proof (op_run_ok (ideal view d0) uda (OGet path constant ps dynamic xml_tbp nbc m) w) as Eo. apply (f_equal snd) in Eo. cbn [snd] in Eo. rewrite Eo. cbn [op_run].
  assert (An : answers (ideal view d0) view d0) by (intros t q; reflexivity).
  assert (Known : forall a, manager constant ps path = Ok a -> snd (get_run (ideal view d0) uda path constant ps dynamic xml_tbp nbc m (tr w)) =
     own (rbind (checked s) (fun mode => rbind (StoreModel.get_children dynamic xml_tbp nbc mode (seen view [FIDS 0 a false] s) m) (fun n => Ok (Got n))))).
  { intros a Ma. destruct (get_reads0 (ideal view d0) uda path constant dynamic xml_tbp nbc m ps a (tr w) Ma) as (l & F' & _ & _ & _ & _ & _ & E). now apply E. }
  destruct (manager constant ps path) as [a|e] eqn:Ma.
  - rewrite (Known a eq_refl). unfold checked. destruct (StoreModel.read_mode s) as [z|e]; [|reflexivity]. cbn [rbind]. destruct (is_mode z); [|reflexivity]. cbn [negb rbind].
    unfold manager in Ma. destruct constant; [|destruct ps as [|? []|]]; try discriminate; injection Ma as <-; cbn [seen]; now destruct (StoreModel.get_children _ _ _ _ _ _).
  - assert (X : constant = false /\ (exists time, ps = PSlice time Unknown) /\ e = BadMethod) by (unfold manager in Ma; destruct constant; [discriminate|]; destruct ps as [|? []|]; inversion Ma; eauto).
    destruct X as (-> & (time & ->) & ->). destruct (get_mode_reads (ideal view d0) uda path (tr w)) as (l & F' & _ & _ & _ & _ & _ & E). specialize (E view d0 An A).
    unfold get_run, mbind. fold s in E. destruct (get_mode (ideal view d0) uda path (tr w)) as [t1 r1]. cbn [snd] in E. rewrite E. unfold checked.
    destruct (StoreModel.read_mode s) as [z|e]; [|reflexivity]. cbn [rbind]. destruct (is_mode z); [|reflexivity]. cbn [own negb]. rewrite Ma. reflexivity.
Qed.
Print Assumptions C63_get.
(** For a whole IDS this is StoreModel's get. *)
Theorem C63_get_all : forall view d0 uda ops path constant dynamic xml_tbp nbc m, let w := steps (ideal view d0) uda ops start in
  snd (step (ideal view d0) uda (OGet path constant PAll dynamic xml_tbp nbc m) w) =
  match StoreModel.al_get dynamic xml_tbp nbc (drun d0 [] (tr w) path) m with Ok n => Ok (Got n) | Err e => Err (Own e) end.
Proof.
  intros view d0 uda ops path constant dynamic xml_tbp nbc m w. unfold w. rewrite C63_get. cbv zeta. unfold StoreModel.al_get.
  destruct (StoreModel.read_mode _) as [z|e]; [|reflexivity]. cbn [rbind]. destruct (is_mode z), constant; reflexivity.
Qed.
Print Assumptions C63_get_all.
(** read_dd_version gives the version that is stored; it refuses an occurrence without a time mode. *)
Theorem C63_version : forall view d0 uda ops path, let w := steps (ideal view d0) uda ops start in let s := drun d0 [] (tr w) path in
  snd (step (ideal view d0) uda (OVersion path) w) =
  match StoreModel.read_mode s, StoreModel.read s ([], (strs "ids_properties/version_put/data_dictionary", [])) STR 0 with
  | Ok z, Ok v => if is_mode z then Ok (Version v) else Err NoData
  | Err e, _ => Err (Own e)
  | _, Err e => Err (Own e)
  end.
Proof.
  intros view d0 uda ops path w s. destruct (start_inv (ideal view d0) uda ops) as [A R]. fold w in A, R.
  pose proof (op_run_ok (ideal view d0) uda (OVersion path) w) as Eo. apply (f_equal snd) in Eo. cbn [snd] in Eo. rewrite Eo. cbn [op_run].
  destruct (version_reads (ideal view d0) uda path (tr w)) as (l & F' & _ & _ & _ & _ & _ & E). specialize (E view d0 (fun t q => eq_refl) A). fold s in E.
  unfold read_dd_version, mbind at 1. match goal with |- snd (match ?x with _ => _ end) = _ => change (snd x = own (rbind (StoreModel.read_mode s) (fun z => rbind (StoreModel.read s ([], version_place) STR 0) (fun v => Ok (z, v))))) in E; destruct x as [t1 r1] end.
  cbn [snd] in E. rewrite E. change version_place with (strs "ids_properties/version_put/data_dictionary", @nil ascii). destruct (StoreModel.read_mode s) as [z|e]; [|reflexivity]. cbn [rbind].
  destruct (StoreModel.read s _ STR 0) as [v|e]; [|reflexivity]. cbn [rbind own]. now destruct (is_mode z).
Qed.
Print Assumptions C63_version.

(** * Writing *)
(** A put carries out the writes of StoreModel's put in order, up to the first failure; all of them if it succeeds.  Other occurrences are
    not touched. *)
Theorem C63_put_prefix : forall answer uda ops path slice dynamic xml_tbp maxoccur nbc mode verify edyn em m n, let w := steps answer uda ops start in
  let o := OPut path slice dynamic xml_tbp maxoccur nbc mode verify edyn em m n in
  exists l sl rest, tr (fst (step answer uda o w)) = tr w ++ l /\ (slice = false -> sl = false) /\
    fst (StoreModel.put_children dynamic xml_tbp maxoccur nbc mode sl verify m n) = written_all [] l ++ rest /\
    (snd (step answer uda o w) = Ok Done -> rest = []) /\ forall d p, p <> path -> drun d [] l p = d p.
Proof.
  intros. pose proof (op_run_ok answer uda o w) as Eo.
  assert (Et : tr (fst (step answer uda o w)) = fst (op_run answer uda o (tr w))) by (rewrite <- Eo; reflexivity).
  assert (Er : snd (step answer uda o w) = snd (op_run answer uda o (tr w))) by (rewrite <- Eo; reflexivity). rewrite Et, Er. cbn [op_run o].
  destruct (put_tri answer path slice dynamic xml_tbp maxoccur nbc mode verify edyn em m n (tr w)) as (l & F' & H1 & _ & _ & _ & O & (sl & rest & X1 & X2 & X3) & _).
  exists l, sl, rest. auto 10.
Qed.
Print Assumptions C63_put_prefix.

Definition no_read (e : ev) : Prop := match fst e with QRead _ _ _ _ => False | _ => True end.
Section NoRead.
Variable answer : list ev -> request -> reply.
Local Notation M := (EagerModel.M).
Definition adds {A} (x : M A) : Prop := forall t, exists l, fst (x t) = t ++ l /\ Forall no_read l.
Lemma adds_ret : forall A (a : A), adds (ret a). Proof. intros A a t. exists []. cbn. now rewrite app_nil_r. Qed.
Lemma adds_fail : forall A e, adds (fail e : M A). Proof. intros A a t. exists []. cbn. now rewrite app_nil_r. Qed.
Lemma adds_bind : forall A B (x : M A) (f : A -> M B), adds x -> (forall a, adds (f a)) -> adds (mbind x f).
Proof.
  intros A B x f X K t. unfold mbind. destruct (X t) as (l & E & H). destruct (x t) as [t1 [a|e]]; cbn [fst] in *; subst; eauto.
  destruct (K a (t ++ l)) as (l2 & -> & H2). exists (l ++ l2). rewrite app_assoc. split; auto. apply Forall_app. auto.
Qed.
Lemma adds_call : forall e q, (forall r, no_read (q, r)) -> adds (call answer e q).
Proof. intros e q N t. eexists. split; [reflexivity|]. auto. Qed.
Lemma adds_with : forall A begin (body : cid -> reply -> M A), (forall c r, no_read (begin c, r)) -> (forall c r, adds (body c r)) -> adds (with_ctx answer begin body).
Proof.
  intros A begin body B K t. unfold with_ctx, call. set (c := S (length t)). destruct (r_ok _); [|eexists; split; [reflexivity|auto]].
  destruct (K c (answer t (begin c)) (t ++ [(begin c, answer t (begin c))])) as (l & E & H). destruct (body c _ _) as [t1 x]. cbn [fst] in *. subst. unfold end_action.
  eexists. split; [rewrite <- !app_assoc; reflexivity|]. apply Forall_app. split; auto. apply Forall_app. split; auto. repeat constructor.
Qed.
Lemma adds_each : forall A B c (f : A -> M B) l, (forall x, In x l -> adds (f x)) -> adds (each answer c f l).
Proof.
  induction l as [|x l IH]; intros H; [apply adds_ret|]. cbn [each]. apply adds_bind; [apply H; now left|]. intros y. apply adds_bind; [now apply adds_call|].
  intros _. apply adds_bind; [apply IH; intros; apply H; now right|]. intros ys. apply adds_ret.
Qed.
Lemma adds_all : forall A (f : A -> M unit) l, (forall x, In x l -> adds (f x)) -> adds (all f l).
Proof.
  induction l as [|x l IH]; intros H; [apply adds_ret|]. cbn [all]. apply adds_bind; [apply H; now left|]. intros _. apply IH. intros; apply H; now right.
Qed.
Lemma adds_put : forall dynamic xml_tbp maxoccur nbc mode is_slice verify m n p c, adds (put_node answer dynamic xml_tbp maxoccur nbc mode is_slice verify m n p c).
Proof.
  intros dynamic xml_tbp maxoccur nbc mode is_slice verify m. meta_induction m. intros nd p c. cbn [put_node]. destruct (StoreModel.omitted _ _ _ _); [apply adds_ret|].
  destruct (StoreModel.locate _ _ _ _ _ _) as [[pl|]|e]; [|apply adds_ret|apply adds_fail].
  assert (PS : forall fs q c', adds (all (fun d => match alookup (mname d) fs with Some ch => if has_value d ch then put_node answer dynamic xml_tbp maxoccur nbc mode is_slice verify d ch q c' else ret tt | None => ret tt end) cs)).
  { intros fs q c'. apply adds_all. intros d D. destruct (alookup _ _); [|apply adds_ret]. destruct (has_value _ _); [now apply IH|apply adds_ret]. }
  destruct k; destruct nd as [fs|els|[v|]]; try apply adds_ret; auto.
  - destruct (verify && _); [apply adds_fail|]. apply adds_with; [intros; exact I|]. intros new r. apply adds_bind; [|intros; apply adds_ret]. apply adds_each. intros e _. apply PS.
  - destruct (is_slice && _); [apply adds_ret|]. apply adds_bind; [apply adds_call; intros; exact I|intros; apply adds_ret].
Qed.
Lemma adds_delete : forall dynamic c m p, adds (delete_node answer dynamic c m p).
Proof.
  intros dynamic c m. meta_induction m. intros p. cbn [delete_node]. destruct k.
  - apply adds_all. auto.
  - apply adds_bind; [apply adds_call; intros; exact I|intros; apply adds_ret].
  - apply adds_bind; [apply adds_call; intros; exact I|intros; apply adds_ret].
Qed.
Lemma adds_al_put : forall path dynamic xml_tbp maxoccur nbc mode verify edyn em m n, adds (al_put answer path false dynamic xml_tbp maxoccur nbc mode verify edyn em m n).
Proof.
  intros. apply adds_bind; [apply adds_ret|]. intros sl. apply adds_bind.
  - destruct sl; [apply adds_ret|]. apply adds_with; [intros; exact I|]. intros c r. apply adds_all. intros d _. apply adds_delete.
  - intros _. apply adds_bind; [|intros; apply adds_ret]. apply adds_with; [intros; exact I|]. intros c r. apply adds_all. intros d _.
    destruct (alookup _ _); [|apply adds_ret]. destruct (has_value _ _); [apply adds_put|apply adds_ret].
Qed.
End NoRead.

(** the ideal database refuses nothing but reading data of another type *)
Lemma ideal_fine : forall view d0 t q r b F, regular (ideal view d0) (t ++ (q, r) :: b) -> arun [] (t ++ (q, r) :: b) = Some F -> fine (q, r) = false -> exists c pl dt nd, q = QRead c pl dt nd.
Proof.
  intros view d0 t q r b F R A Fi. destruct (R t q r b eq_refl) as [-> _]. rewrite arun_app in A. destruct (arun [] t) as [F1|] eqn:At; [|discriminate].
  unfold fine in Fi. apply orb_false_iff in Fi as [_ O]. cbn [snd] in O. unfold ideal in O. rewrite At in O. destruct q; try discriminate O. eauto.
Qed.

(** With a database that does what the calls say, a put leaves there what StoreModel's put leaves (see C31), also when it fails; a put_slice
    asks for StoreModel's writes (see C58 for what they do). *)
Theorem C63_put : forall view d0 uda ops path slice dynamic xml_tbp maxoccur nbc mode verify edyn em m n, let w := steps (ideal view d0) uda ops start in
  let x := step (ideal view d0) uda (OPut path slice dynamic xml_tbp maxoccur nbc mode verify edyn em m n) w in
  (slice = true -> snd x <> Err (Own StoreModel.Lowlevel)) ->
  (slice = false -> (drun d0 [] (tr (fst x)) path, match snd x with Ok _ => None | Err e => Some e end) =
     let y := StoreModel.al_put dynamic xml_tbp maxoccur nbc mode verify edyn em (drun d0 [] (tr w) path) m n in (fst y, option_map Own (snd y))) /\
  exists l, tr (fst x) = tr w ++ l /\
    match StoreModel.al_put_calls dynamic xml_tbp maxoccur nbc mode verify edyn em slice (drun d0 [] (tr w) path) m n with
    | Err e => snd x = Err (Own e) /\ drun d0 [] (tr (fst x)) path = drun d0 [] (tr w) path
    | Ok (_, _, (calls, e)) => written_all [] l = calls /\ snd x = match e with None => Ok Done | Some e => Err (Own e) end
    end.
Proof.
  intros view d0 uda ops path slice dynamic xml_tbp maxoccur nbc mode verify edyn em m n w x NoLow.
  destruct (start_inv (ideal view d0) uda ops) as [A R]. fold w in A, R. set (o := OPut path slice dynamic xml_tbp maxoccur nbc mode verify edyn em m n) in *.
  pose proof (op_run_ok (ideal view d0) uda o w) as Eo.
  assert (Et : tr (fst x) = fst (op_run (ideal view d0) uda o (tr w))) by (unfold x; rewrite <- Eo; reflexivity).
  assert (Er : snd x = snd (op_run (ideal view d0) uda o (tr w))) by (unfold x; rewrite <- Eo; reflexivity).
  pose proof (keeps_op (ideal view d0) uda o (tr w) R) as K.
  destruct (put_tri (ideal view d0) path slice dynamic xml_tbp maxoccur nbc mode verify edyn em m n (tr w)) as (l & F' & H1 & A1 & Ha & -> & _ & _ & H).
  change (al_put (ideal view d0) path slice dynamic xml_tbp maxoccur nbc mode verify edyn em m n) with (op_run (ideal view d0) uda o) in H1, Ha, H.
  rewrite <- Er in H, Ha. rewrite H1 in Et, K.
  assert (Fi : forallb fine l = true).
  { destruct Ha as [[Fi _]|(a & q & rp & b & El & Fa & Fq & Eb & Ex)]; auto. exfalso.
    assert (Q : exists c pl dt nd, q = QRead c pl dt nd).
    { assert (E2 : (tr w ++ a) ++ (q, rp) :: b = tr w ++ l) by (rewrite El; symmetry; apply app_assoc).
      apply (ideal_fine view d0 (tr w ++ a) q rp b []); auto.
      - exact (eq_ind_r (regular (ideal view d0)) K E2).
      - refine (eq_ind_r (fun z => arun [] z = Some []) _ E2). now rewrite arun_app, A. }
    destruct Q as (c & pl & dt & nd & ->). cbn [error_of] in Ex. destruct slice.
    - now apply NoLow.
    - destruct (adds_al_put (ideal view d0) path dynamic xml_tbp maxoccur nbc mode verify edyn em m n (tr w)) as (l' & E' & N'). cbn [op_run o] in H1. rewrite H1 in E'. apply app_inv_head in E'. subst l'.
      rewrite El in N'. apply Forall_app in N' as [_ N']. inversion N' as [|? ? N0 _]. exact N0. }
  specialize (H view d0 (fun t q => eq_refl) A Fi). rewrite Et. split.
  - intros ->. unfold StoreModel.al_put. destruct (StoreModel.al_put_calls _ _ _ _ _ _ _ _ false _ _ _) as [[[sl s] [calls e]]|e].
    + destruct H as (_ & H2 & ->). rewrite H2. destruct e; reflexivity.
    + destruct H as (-> & H2). rewrite H2. reflexivity.
  - exists l. split; auto. destruct (StoreModel.al_put_calls _ _ _ _ _ _ _ _ _ _ _ _) as [[[sl s] [calls e]]|e].
    + destruct H as (H0 & _ & H2). auto.
    + auto.
Qed.
Print Assumptions C63_put.

(** Different occurrences have different paths. *)
Theorem C63_paths : forall n1 o1 n2 o2, ~ In "/"%char n1 -> ~ In "/"%char n2 -> ll_path n1 o1 = ll_path n2 o2 -> n1 = n2 /\ o1 = o2.
Proof.
  assert (Sp : forall (a b c d : str), ~ In "/"%char a -> ~ In "/"%char c -> a ++ "/"%char :: b = c ++ "/"%char :: d -> a = c /\ b = d).
  { induction a as [|x a IH]; intros b [|y c] d A C E; cbn in E.
    - injection E as <-. auto.
    - injection E as <- _. exfalso. apply C. now left.
    - injection E as -> _. exfalso. apply A. now left.
    - injection E as -> E. destruct (IH b c d) as [-> ->]; auto; [intros X; apply A; now right|intros X; apply C; now right]. }
  intros n1 o1 n2 o2 N1 N2 E. unfold ll_path in E. destruct (o1 =? 0)%Z eqn:Z1, (o2 =? 0)%Z eqn:Z2.
  - apply Z.eqb_eq in Z1, Z2. subst. auto.
  - exfalso. apply N1. rewrite E. apply in_or_app. right. now left.
  - exfalso. apply N2. rewrite <- E. apply in_or_app. right. now left.
  - destruct (Sp _ _ _ _ N1 N2 E) as [-> S]. split; auto. now apply NcEntryProps.show_Z_inj.
Qed.
Print Assumptions C63_paths.

(** * Findings *)
Definition begins (l : list ev) : nat := count (fun e => match e with (QBegin _ _ _, r) => r_ok r | _ => false end) l.
Definition is_get (o : op) : bool := match o with OGet _ _ _ _ _ _ _ => true | _ => false end.
(** The garbage collector is as before, except after a get that fails while it reads the data (with its second context): then it is off. *)
Theorem C63_gc : forall answer uda o w, let x := step answer uda o w in exists l, tr (fst x) = tr w ++ l /\
  gc (fst x) = gc w && negb (is_get o && (2 <=? begins l) && match snd x with Err _ => true | Ok _ => false end).
Proof.
  intros answer uda o w x. destruct o as [path constant ps dynamic xml_tbp nbc m|path slice dynamic xml_tbp maxoccur nbc mode verify edyn em m n|path|path].
  2-4: unfold x; cbn [step is_get]; unfold lift.
  2:{ destruct (put_tri answer path slice dynamic xml_tbp maxoccur nbc mode verify edyn em m n (tr w)) as (l & F' & H & _). exists l.
      destruct (al_put _ _ _ _ _ _ _ _ _ _ _ _ _ (tr w)). cbn in *. split; auto. now rewrite andb_true_r. }
  2:{ destruct (version_tri answer uda path (tr w)) as (l & F' & H & _). exists l. destruct (read_dd_version _ _ _ (tr w)). cbn in *. split; auto. now rewrite andb_true_r. }
  2:{ destruct (delete_trace answer path (tr w)) as (l & H & _). exists l. destruct (delete_data _ _ (tr w)). cbn in *. split; auto. now rewrite andb_true_r. }
  unfold x. cbn [step is_get andb]. unfold al_get.
  assert (G : exists l0, fst (get_mode answer uda path (tr w)) = tr w ++ l0 /\ begins l0 <= 1 /\ (forall z, snd (get_mode answer uda path (tr w)) = Ok z -> begins l0 = 1)).
  { unfold get_mode, mbind, with_ctx, call, end_action, ret, fail. set (c := S (length (tr w))). set (q := QBegin c _ false). destruct (r_ok (answer (tr w) q)) eqn:O.
    - destruct (r_ok (answer (tr w ++ _) _)).
      + destruct (is_mode _); cbn [fst snd]; (eexists; split; [rewrite <- !app_assoc; reflexivity|]); unfold begins, count; cbn; rewrite O; cbn; auto.
      + cbn [fst snd]. eexists. split; [rewrite <- !app_assoc; reflexivity|]. unfold begins, count. cbn. rewrite O. cbn. auto.
    - cbn [fst snd]. eexists. split; [reflexivity|]. unfold begins, count. cbn. rewrite O. cbn. split; [lia|discriminate]. }
  destruct G as (l0 & E0 & B0 & B1). destruct (get_mode answer uda path (tr w)) as [t [mode|e]]; cbn [fst snd] in *; subst t.
  2:{ exists l0. split; auto. cbn [tr gc]. replace (2 <=? begins l0) with false by (symmetry; apply Nat.leb_gt; lia). cbn. now rewrite andb_true_r. }
  specialize (B1 mode eq_refl). destruct (manager constant ps path) as [a|e]; cbn [fst snd tr gc].
  2:{ exists l0. split; auto. rewrite B1. cbn. now rewrite andb_true_r. }
  set (c := S (length (tr w ++ l0))). unfold call. set (q := QBegin c a false). destruct (r_ok (answer (tr w ++ l0) q)) eqn:O; cbn [fst snd tr gc].
  2:{ eexists. split; [rewrite <- app_assoc; reflexivity|]. unfold begins, count in *. rewrite filter_app, app_length, B1. cbn [filter q]. rewrite O. cbn. now rewrite andb_true_r. }
  assert (U : usable [FIDS c a false] c = true) by (cbn; now rewrite Nat.eqb_refl).
  destruct (get_children_reads answer dynamic xml_tbp nbc mode m [FIDS c a false] c ((tr w ++ l0) ++ [(q, answer (tr w ++ l0) q)]) U eq_refl eq_refl) as (l & F' & H & _).
  assert (B2 : forall l', 2 <=? begins (l0 ++ [(q, answer (tr w ++ l0) q)] ++ l') = true).
  { intros l'. apply Nat.leb_le. unfold begins, count in *. rewrite !filter_app, !app_length, B1. cbn [filter q]. rewrite O. cbn. lia. }
  destruct (get_children answer dynamic xml_tbp nbc mode m c _) as [t1 [n|e]]; cbn [fst snd] in *; subst t1; unfold end_action; cbn [fst snd tr gc];
    (eexists; split; [rewrite <- !app_assoc; reflexivity|]); rewrite B2; cbn; now rewrite ?andb_true_r, ?andb_false_r.
Qed.
Print Assumptions C63_gc.

(** A failing get leaves the garbage collector of the process switched off. *)
Definition leaf1 : meta := Meta (strs "ids") KStruct [Meta (strs "x") (KLeaf FLT 0) []].
Definition fails_x (t : list ev) (q : request) : reply :=
  match q with
  | QRead _ pl _ _ => if str_eqb (fst pl) (strs "x") then no else {| r_ok := true; r_size := 0; r_data := Some (VInt 1) |}
  | _ => yes
  end.
Definition get_x : op := OGet (strs "ids") false PAll (fun _ => false) (fun _ => []) None leaf1.
Theorem C63_gc_refuted : exists answer uda o w, gc w = true /\ gc (fst (step answer uda o w)) = false.
Proof. exists fails_x, false, get_x, start. vm_compute. auto. Qed.
Print Assumptions C63_gc_refuted.

(** delete_data never deletes anything and always raises. *)
Theorem C63_delete : forall answer uda path w, exists l, let x := step answer uda (ODelete path) w in
  tr (fst x) = tr w ++ l /\ (forall d p, drun d [] l p = d p) /\ forallb (fun e => match fst e with QDelete _ _ => false | _ => true end) l = true /\
  (snd x = Err BadArguments \/ snd x = Err (Own StoreModel.Lowlevel)).
Proof.
  intros answer uda path w. cbn [step]. unfold lift, delete_data, with_ctx, call, end_action, fail. set (c := S (length (tr w))). set (q := QBegin c (AGlobal path []) true).
  destruct (r_ok (answer (tr w) q)) eqn:O.
  - eexists [(q, answer (tr w) q); (QEnd c, _)]. cbn [fst snd tr]. rewrite <- app_assoc. split; [reflexivity|]. split; [|split; [reflexivity|now left]].
    match goal with |- forall d p, drun d [] (?e :: ?z) p = d p => change (still [] ([e] ++ z)) end.
    eapply still_app; [now apply arun_begin|apply still_begin|apply still_end].
  - exists [(q, answer (tr w) q)]. cbn [fst snd tr]. split; [reflexivity|]. split; [|split; [reflexivity|now right]]. intros d p. apply still_begin.
Qed.
Print Assumptions C63_delete.

(** A write that the Access Layer refuses is not reported as LowlevelError: the exception cannot be made. *)
Definition refuses_write (t : list ev) (q : request) : reply := match q with QWrite _ _ _ => no | _ => yes end.
Definition put_x : op :=
  OPut (strs "ids/1") false (fun _ => false) (fun _ => []) (fun _ => None) None 1 false (fun _ => false) leaf1 leaf1 (NStruct [(strs "x", NLeaf (Some (VFlt 4607182418800017408%Z)))]).
Theorem C63_write_error_refuted : exists answer uda o, snd (step answer uda o start) = Err BadArguments /\
  exists a q rp b, tr (fst (step answer uda o start)) = a ++ (q, rp) :: b /\ r_ok rp = false /\ exists c pl v, q = QWrite c pl v.
Proof.
  exists refuses_write, false, put_x. split; [vm_compute; reflexivity|].
  exists (firstn 4 (tr (fst (step refuses_write false put_x start)))). do 3 eexists. split; [vm_compute; reflexivity|]. split; [reflexivity|]. eauto.
Qed.
Print Assumptions C63_write_error_refuted.

(** * Examples *)
(** An array of two structures is stored and read again; the trace obeys the rules and the values come back. *)
Definition arr : meta := Meta (strs "ids") KStruct
  [Meta (strs "ids_properties") KStruct [Meta (strs "homogeneous_time") (KLeaf INT 0) []];
   Meta (strs "a") KAoS [Meta (strs "v") (KLeaf FLT 0) []; Meta (strs "w") (KLeaf STR 0) []]].
Definition arr_node : node := NStruct
  [(strs "ids_properties", NStruct [(strs "homogeneous_time", NLeaf (Some (VInt 1)))]);
   (strs "a", NAoS [NStruct [(strs "v", NLeaf (Some (VFlt 4607182418800017408%Z)))]; NStruct [(strs "w", NLeaf (Some (VStr (strs "two"))))]])].
Definition put_arr : op := OPut (ll_path (strs "ids") 3) false (fun _ => false) (fun _ => []) (fun _ => None) None 1 false (fun _ => false) arr arr arr_node.
Definition get_arr : op := OGet (ll_path (strs "ids") 3) false PAll (fun _ => false) (fun _ => []) None arr.
Example C63_example : let w := fst (step (ideal (fun _ s => s) (fun _ => empty_store)) false put_arr start) in
  snd (step (ideal (fun _ s => s) (fun _ => empty_store)) false get_arr w) = Ok (Got arr_node) /\
  length (tr w) = 13 /\ snd (step (ideal (fun _ s => s) (fun _ => empty_store)) false (OGet (strs "ids") false PAll (fun _ => false) (fun _ => []) None arr) w) = Err (Own StoreModel.TimeMode).
Proof. vm_compute. auto. Qed.

(** The sixth call that writes fails inside the array: both contexts are ended all the same. *)
Definition fails_at (k : nat) (d0 : db) (t : list ev) (q : request) : reply := if length t =? k then no else ideal (fun _ s => s) d0 t q.
Example C63_example_failure : let x := step (fails_at 9 (fun _ => empty_store)) false put_arr start in
  snd x = Err BadArguments /\ length (tr (fst x)) = 12 /\ arun [] (tr (fst x)) = Some [] /\
  map (fun e => match fst e with QEnd c => Some c | _ => None end) (skipn 10 (tr (fst x))) = [Some 7; Some 5].
Proof. vm_compute. auto. Qed.

(** An occurrence that was stored is still there after delete_data. *)
Theorem C63_delete_refuted : exists view d0 uda path o k v, let w := fst (step (ideal view d0) uda o start) in
  snd (step (ideal view d0) uda o start) = Ok Done /\ s_data (drun d0 [] (tr w) path) k = Some v /\
  snd (step (ideal view d0) uda (ODelete path) w) = Err BadArguments /\ s_data (drun d0 [] (tr (fst (step (ideal view d0) uda (ODelete path) w))) path) k = Some v.
Proof.
  exists (fun _ s => s), (fun _ => empty_store), false, (ll_path (strs "ids") 3), put_arr, ([((strs "a", []), 1)], (strs "w", [])), (VStr (strs "two")).
  vm_compute. auto.
Qed.
Print Assumptions C63_delete_refuted.
