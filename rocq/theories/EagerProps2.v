(** C63, continued: which occurrences are opened, and how. *)
From Verif Require Import Base TreeModel TreeSpec TreeProofs VmapModel EagerModel EagerSpec EagerProofs EagerProofs2 EagerProofs3 EagerProofs4 EagerProps.
From Verif Require StoreModel.
Import StoreModel (place, store, s_data, is_mode, empty_store).

(** what is asked to be opened: the action and whether for writing *)
Definition begun (l : list ev) : list (action * bool) := flat_map (fun e => match e with (QBegin _ a w, _) => [(a, w)] | _ => [] end) l.
(** the beginning of a list *)
Definition starts {A} (a l : list A) : Prop := exists b, a ++ b = l.
(** the part of the occurrence that only the UDA backend is asked for while the time mode is read *)
Definition mode_part (uda : bool) : str := if uda then strs "ids_properties" else [].
(** what each operation opens if nothing fails; for put_slice there are two ways (the occurrence is empty, or it is not) *)
Definition expected (uda : bool) (o : op) : list (list (action * bool)) :=
  match o with
  | OGet path constant ps _ _ _ _ =>
      [(AGlobal path (mode_part uda), false) ::
       (if constant then [(AGlobal path [], false)] else
        match ps with
        | PAll => [(AGlobal path [], false)]
        | PSlice _ Unknown => []
        | PSlice t i => [(ASlice path (Some t) i, false)]
        | PSample a b d i => [(ARange path a b d i, false)]
        end)]
  | OPut path false _ _ _ _ _ _ _ _ _ _ => [[(AGlobal path [], true); (AGlobal path [], true)]]
  | OPut path true _ _ _ _ _ _ _ _ _ _ =>
      [[(AGlobal path [], false); (AGlobal path [], true); (AGlobal path [], true)]; [(AGlobal path [], false); (ASlice path None Undefined, true)]]
  | OVersion path => [[(AGlobal path (mode_part uda), false)]]
  | ODelete path => [[(AGlobal path [], true)]]
  end.

Section Opened.
Variable answer : list ev -> request -> reply.
Variable uda : bool.
Local Notation M := (EagerModel.M).

(** [x] opens a beginning of [b], all of it if it succeeds with a result for which [b] is what is opened *)
Definition opened {A} (x : M A) (b : list (action * bool)) (bs : A -> list (action * bool)) : Prop :=
  forall t, exists l, fst (x t) = t ++ l /\ match snd (x t) with Ok a => begun l = bs a | Err _ => starts (begun l) b end.
Definition quiet {A} (x : M A) : Prop := opened x [] (fun _ => []).
Lemma begun_app : forall a b, begun (a ++ b) = begun a ++ begun b.
Proof. intros. apply flat_map_app. Qed.
Lemma starts_nil : forall A (a : list A), starts a [] -> a = [].
Proof. intros A [|x a] [b E]; auto. discriminate. Qed.
Lemma starts_refl : forall A (a : list A), starts a a.
Proof. intros A a. exists []. apply app_nil_r. Qed.
Lemma quiet_ret : forall A (a : A), quiet (ret a). Proof. intros A a t. exists []. cbn. now rewrite app_nil_r. Qed.
Lemma quiet_fail : forall A e, quiet (fail e : M A). Proof. intros A a t. exists []. cbn. rewrite app_nil_r. split; auto. exists []. auto. Qed.
Lemma opened_bind : forall A B (x : M A) (f : A -> M B) b bs c, opened x b bs -> (forall a, exists c', opened (f a) c' (fun _ => c') /\ bs a ++ c' = c) -> (exists b', b ++ b' = c) ->
  opened (mbind x f) c (fun _ => c).
Proof.
  intros A B x f b bs c X K [b' Eb] t. unfold mbind. destruct (X t) as (l & E & H). destruct (x t) as [t1 [a|e]]; cbn [fst snd] in *; subst t1.
  - destruct (K a) as (c' & Kc & <-). destruct (Kc (t ++ l)) as (l2 & E2 & H2). exists (l ++ l2). rewrite E2, app_assoc. split; auto. rewrite begun_app.
    destruct (f a (t ++ l)) as [t2 [y|e]]; cbn [snd] in *.
    + now rewrite H, H2.
    + destruct H2 as [z Hz]. exists z. now rewrite H, <- app_assoc, Hz.
  - exists l. split; auto. destruct H as [z Hz]. exists (z ++ b'). now rewrite app_assoc, Hz.
Qed.
Lemma quiet_bind : forall A B (x : M A) (f : A -> M B), quiet x -> (forall a, quiet (f a)) -> quiet (mbind x f).
Proof. intros A B x f X K. apply (opened_bind _ _ x f [] (fun _ => [])); auto; [|now exists []]. intros a. exists []. split; auto. apply K. Qed.
Lemma quiet_call : forall e q, (forall r, begun [(q, r)] = []) -> quiet (call answer e q).
Proof. intros e q N t. eexists. split; [reflexivity|]. cbn [call snd]. rewrite N. destruct (r_ok _); auto. exists []. auto. Qed.
Lemma opened_with : forall A a w (body : cid -> reply -> M A), (forall c r, quiet (body c r)) -> opened (with_ctx answer (fun new => QBegin new a w) body) [(a, w)] (fun _ => [(a, w)]).
Proof.
  intros A a w body K t. unfold with_ctx, call. set (c := S (length t)). set (q := QBegin c a w). destruct (r_ok (answer t q)).
  - destruct (K c (answer t q) (t ++ [(q, answer t q)])) as (l & E & H). destruct (body c _ _) as [t1 x]. cbn [fst snd] in *. subst t1. unfold end_action.
    eexists. split; [rewrite <- !app_assoc; reflexivity|]. rewrite !begun_app. cbn [begun flat_map app]. rewrite app_nil_r. destruct x; [now rewrite H|]. apply starts_nil in H. rewrite H. apply starts_refl.
  - eexists. split; [reflexivity|]. cbn. apply starts_refl.
Qed.
Lemma quiet_with : forall A begin (body : cid -> reply -> M A), (forall c r, begun [(begin c, r)] = []) -> (forall c r, quiet (body c r)) -> quiet (with_ctx answer begin body).
Proof.
  intros A begin body B K t. unfold with_ctx, call. set (c := S (length t)). destruct (r_ok (answer t (begin c))).
  - destruct (K c (answer t (begin c)) (t ++ [(begin c, answer t (begin c))])) as (l & E & H). destruct (body c _ _) as [t1 x]. cbn [fst snd] in *. subst t1. unfold end_action.
    eexists. split; [rewrite <- !app_assoc; reflexivity|]. rewrite !begun_app, B. destruct x; [now rewrite H|]. apply starts_nil in H. rewrite H. apply starts_refl.
  - eexists. split; [reflexivity|]. cbn [snd]. rewrite B. apply starts_refl.
Qed.
Lemma quiet_each : forall A B c (f : A -> M B) l, (forall x, In x l -> quiet (f x)) -> quiet (each answer c f l).
Proof.
  induction l as [|x l IH]; intros H; [apply quiet_ret|]. cbn [each]. apply quiet_bind; [apply H; now left|]. intros y. apply quiet_bind; [now apply quiet_call|].
  intros _. apply quiet_bind; [apply IH; intros; apply H; now right|]. intros ys. apply quiet_ret.
Qed.
Lemma quiet_all : forall A (f : A -> M unit) l, (forall x, In x l -> quiet (f x)) -> quiet (all f l).
Proof.
  induction l as [|x l IH]; intros H; [apply quiet_ret|]. cbn [all]. apply quiet_bind; [apply H; now left|]. intros _. apply IH. intros; apply H; now right.
Qed.
Lemma quiet_gather : forall (f : meta -> M (option node)) cs, (forall d, In d cs -> quiet (f d)) -> quiet (gather cs f).
Proof.
  induction cs as [|d cs IH]; intros H; [apply quiet_ret|]. unfold gather in *. apply quiet_bind; [apply H; now left|]. intros x. apply quiet_bind; [apply IH; intros; apply H; now right|].
  intros r. apply quiet_ret.
Qed.
Lemma quiet_get : forall dynamic xml_tbp nbc mode m p c, quiet (get_node answer dynamic xml_tbp nbc mode m p c).
Proof.
  intros dynamic xml_tbp nbc mode m. meta_induction m. intros p c. cbn [get_node]. destruct (StoreModel.omitted _ _ _ _); [apply quiet_ret|].
  destruct (StoreModel.locate _ _ _ _ _ _) as [[pl|]|e]; [|apply quiet_ret|apply quiet_fail]. destruct k.
  - apply quiet_bind; [apply quiet_gather; auto|intros; apply quiet_ret].
  - apply quiet_with; [reflexivity|]. intros new r. destruct (0 <? _)%Z; [|apply quiet_ret]. apply quiet_bind; [|intros; apply quiet_ret]. apply quiet_each. intros _ _.
    apply quiet_bind; [apply quiet_gather; auto|intros; apply quiet_ret].
  - apply quiet_bind; [now apply quiet_call|]. intros r. apply quiet_ret.
Qed.
Lemma quiet_put : forall dynamic xml_tbp maxoccur nbc mode is_slice verify m n p c, quiet (put_node answer dynamic xml_tbp maxoccur nbc mode is_slice verify m n p c).
Proof.
  intros dynamic xml_tbp maxoccur nbc mode is_slice verify m. meta_induction m. intros nd p c. cbn [put_node]. destruct (StoreModel.omitted _ _ _ _); [apply quiet_ret|].
  destruct (StoreModel.locate _ _ _ _ _ _) as [[pl|]|e]; [|apply quiet_ret|apply quiet_fail].
  assert (PS : forall fs q c', quiet (all (fun d => match alookup (mname d) fs with Some ch => if has_value d ch then put_node answer dynamic xml_tbp maxoccur nbc mode is_slice verify d ch q c' else ret tt | None => ret tt end) cs)).
  { intros fs q c'. apply quiet_all. intros d D. destruct (alookup _ _); [|apply quiet_ret]. destruct (has_value _ _); [now apply IH|apply quiet_ret]. }
  destruct k; destruct nd as [fs|els|[v|]]; try apply quiet_ret; auto.
  - destruct (verify && _); [apply quiet_fail|]. apply quiet_with; [reflexivity|]. intros new r. apply quiet_bind; [|intros; apply quiet_ret]. apply quiet_each. intros e _. apply PS.
  - destruct (is_slice && _); [apply quiet_ret|]. apply quiet_bind; [now apply quiet_call|intros; apply quiet_ret].
Qed.
Lemma quiet_delete : forall dynamic c m p, quiet (delete_node answer dynamic c m p).
Proof.
  intros dynamic c m. meta_induction m. intros p. cbn [delete_node]. destruct k.
  - apply quiet_all. auto.
  - apply quiet_bind; [now apply quiet_call|intros; apply quiet_ret].
  - apply quiet_bind; [now apply quiet_call|intros; apply quiet_ret].
Qed.
(** one of the ways *)
Definition ways {A} (x : M A) (bs : list (list (action * bool))) : Prop :=
  forall t, exists l b, fst (x t) = t ++ l /\ In b bs /\ match snd (x t) with Ok _ => begun l = b | Err _ => starts (begun l) b end.
Lemma one_way : forall A (x : M A) b, opened x b (fun _ => b) -> ways x [b].
Proof. intros A x b H t. destruct (H t) as (l & E & R). exists l, b. split; auto. split; [now left|]. destruct (snd (x t)); auto. Qed.
Lemma put_ways : forall path b dynamic xml_tbp maxoccur nbc mode verify edyn em m n, let rest := fun slice : bool =>
  mbind (if slice then ret tt else with_ctx answer (fun new => QBegin new (AGlobal path []) true) (fun c _ => delete_children answer edyn c em))
    (fun _ => mbind (with_ctx answer (fun new => QBegin new (write_action path slice) true) (fun c _ => put_children answer dynamic xml_tbp maxoccur nbc mode slice verify m n c)) (fun _ => ret Done)) in
  opened (rest b) (if b then [(ASlice path None Undefined, true)] else [(AGlobal path [], true); (AGlobal path [], true)])
    (fun _ => if b then [(ASlice path None Undefined, true)] else [(AGlobal path [], true); (AGlobal path [], true)]).
Proof.
  intros path b dynamic xml_tbp maxoccur nbc mode verify edyn em m n rest. unfold rest.
  assert (W : forall sl, opened (mbind (with_ctx answer (fun new => QBegin new (write_action path sl) true) (fun c _ => put_children answer dynamic xml_tbp maxoccur nbc mode sl verify m n c)) (fun _ => ret Done))
     [(write_action path sl, true)] (fun _ => [(write_action path sl, true)])).
  { intros sl. eapply opened_bind; [apply opened_with| |].
    - intros c r. apply quiet_all. intros d _. destruct (alookup _ _); [|apply quiet_ret]. destruct (has_value _ _); [apply quiet_put|apply quiet_ret].
    - intros a. exists []. split; [apply quiet_ret|]. reflexivity.
    - exists []. reflexivity. }
  destruct b.
  - eapply opened_bind; [apply quiet_ret| |eexists; reflexivity]. intros a. eexists. split; [apply W|reflexivity].
  - eapply opened_bind; [apply opened_with| |].
    + intros c r. apply quiet_all. intros d _. apply quiet_delete.
    + intros a. eexists. split; [apply W|reflexivity].
    + exists [(AGlobal path [], true)]. reflexivity.
Qed.
Lemma op_ways : forall o, ways (op_run answer uda o) (expected uda o).
Proof.
  intros [path constant ps dynamic xml_tbp nbc m|path slice dynamic xml_tbp maxoccur nbc mode verify edyn em m n|path|path]; cbn [op_run expected].
  - apply one_way. eapply opened_bind.
    + apply opened_with. intros c r. apply quiet_bind; [now apply quiet_call|]. intros rp. destruct (is_mode _); [apply quiet_ret|apply quiet_fail].
    + intros mode. cbn [app]. destruct (manager constant ps path) as [a|e] eqn:Ma.
      * exists [(a, false)]. split.
        -- eapply opened_with. intros c r. apply quiet_bind; [|intros; apply quiet_ret]. apply quiet_bind; [apply quiet_gather; intros; apply quiet_get|intros; apply quiet_ret].
        -- unfold manager in Ma. unfold datapath, mode_part. destruct constant; [|destruct ps as [|? []|]]; inversion Ma; reflexivity.
      * exists []. split; [apply quiet_fail|]. unfold manager in Ma. unfold datapath, mode_part. destruct constant; [|destruct ps as [|? []|]]; inversion Ma; reflexivity.
    + cbn [app]. unfold datapath, mode_part. eauto.
  - destruct slice.
    + intros t.
      assert (X : opened (with_ctx answer (fun new => QBegin new (AGlobal path []) false) (fun c _ => mbind (call answer lowlevel (QRead c mode_place INT 0)) (fun r => ret (mode_of r)))) [(AGlobal path [], false)] (fun _ => [(AGlobal path [], false)])).
      { apply opened_with. intros c r. apply quiet_bind; [now apply quiet_call|]. intros rp. apply quiet_ret. }
      pose proof (fun b => put_ways path b dynamic xml_tbp maxoccur nbc mode verify edyn em m n) as PW. cbv zeta in PW. unfold al_put.
      match goal with |- context [mbind _ ?f] => set (rest := f); change (forall b, opened (rest b) (if b then [(ASlice path None Undefined, true)] else [(AGlobal path [], true); (AGlobal path [], true)])
        (fun _ => if b then [(ASlice path None Undefined, true)] else [(AGlobal path [], true); (AGlobal path [], true)])) in PW end. clearbody rest.
      unfold slice_mode. destruct (X t) as (l & E & H). unfold mbind at 1 2 4 5. destruct (with_ctx _ _ _ t) as [t1 [z|e]]; cbn [fst snd] in *; subst t1.
      * destruct (z =? EMPTY_INT)%Z; [|destruct (z =? mode)%Z]; unfold ret, fail.
        -- destruct (PW false (t ++ l)) as (l2 & E2 & H2). eexists (l ++ l2), _. rewrite app_assoc. split; [exact E2|]. split; [left; reflexivity|].
           rewrite begun_app, H. destruct (rest false (t ++ l)) as [t2 [y|e]]; cbn [snd fst] in *; [now rewrite H2|]. destruct H2 as [z' Hz]. exists z'. now rewrite <- app_assoc, Hz.
        -- destruct (PW true (t ++ l)) as (l2 & E2 & H2). eexists (l ++ l2), _. rewrite app_assoc. split; [exact E2|]. split; [right; left; reflexivity|].
           rewrite begun_app, H. destruct (rest true (t ++ l)) as [t2 [y|e]]; cbn [snd fst] in *; [now rewrite H2|]. destruct H2 as [z' Hz]. exists z'. now rewrite <- app_assoc, Hz.
        -- eexists l, _. split; [reflexivity|]. split; [left; reflexivity|]. cbn [snd]. rewrite H. eexists. reflexivity.
      * eexists l, _. split; [reflexivity|]. split; [left; reflexivity|]. cbn [snd]. destruct H as [z Hz]. exists (z ++ [(AGlobal path [], true); (AGlobal path [], true)]). now rewrite app_assoc, Hz.
    + apply one_way. exact (put_ways path false dynamic xml_tbp maxoccur nbc mode verify edyn em m n).
  - apply one_way. unfold read_dd_version. eapply opened_bind.
    + apply opened_with. intros c r. apply quiet_bind; [now apply quiet_call|]. intros rp. apply quiet_bind; [now apply quiet_call|]. intros d. apply quiet_ret.
    + intros [z v]. exists []. split; [destruct (is_mode z); [apply quiet_ret|apply quiet_fail]|]. reflexivity.
    + exists []. reflexivity.
  - apply one_way. apply opened_with. intros c r. apply quiet_fail.
Qed.
End Opened.

(** Each operation opens the occurrence it is for, with the parameters of the operation, and nothing else; if a call fails, only the
    beginning of it. *)
Theorem C63_opened : forall answer uda o w, exists l b, tr (fst (step answer uda o w)) = tr w ++ l /\ In b (expected uda o) /\
  match snd (step answer uda o w) with Ok _ => begun l = b | Err _ => starts (begun l) b end.
Proof.
  intros answer uda o w. pose proof (op_run_ok answer uda o w) as Eo.
  assert (Et : tr (fst (step answer uda o w)) = fst (op_run answer uda o (tr w))) by (rewrite <- Eo; reflexivity).
  assert (Er : snd (step answer uda o w) = snd (op_run answer uda o (tr w))) by (rewrite <- Eo; reflexivity). rewrite Et, Er. apply op_ways.
Qed.
Print Assumptions C63_opened.
