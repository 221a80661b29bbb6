(** Proofs for EagerModel: the operations. *)
From Verif Require Import Base TreeModel TreeSpec TreeProofs VmapModel EagerModel EagerSpec EagerProofs EagerProofs2 EagerProofs3.
From Verif Require PrimModel StoreModel.
Import StoreModel (place, store, pos, top, below, locate, omitted, ctx_path, is_mode, apply_all).

(** * Replies and identities in a trace *)
Definition makes (q : request) : option cid := match q with QBegin new _ _ | QArray _ new _ _ => Some new | _ => None end.
Section Regular.
Variable answer : list ev -> request -> reply.
Local Notation M := (EagerModel.M).
Definition regular (t : list ev) : Prop :=
  forall a q r b, t = a ++ (q, r) :: b -> r = answer a q /\ forall new, makes q = Some new -> new = S (length a).
Definition keeps {A} (x : M A) : Prop := forall t, regular t -> regular (fst (x t)).

Lemma regular_nil : regular [].
Proof. intros [|] q r b E; discriminate. Qed.
Lemma regular_snoc : forall t q, regular t -> (forall new, makes q = Some new -> new = S (length t)) -> regular (t ++ [(q, answer t q)]).
Proof.
  intros t q R N a q' r b E. destruct b as [|y b] using rev_ind.
  - apply app_inj_tail in E as [-> E]. injection E as <- <-. auto.
  - clear IHb. rewrite app_comm_cons, app_assoc in E. apply app_inj_tail in E as [E _]. eapply R; eauto.
Qed.
Lemma keeps_ret : forall A (a : A), keeps (ret a). Proof. intros A a t R. exact R. Qed.
Lemma keeps_fail : forall A e, keeps (fail e : M A). Proof. intros A a t R. exact R. Qed.
Lemma keeps_bind : forall A B (x : M A) (f : A -> M B), keeps x -> (forall a, keeps (f a)) -> keeps (mbind x f).
Proof. intros A B x f X K t R. unfold mbind. specialize (X t R). destruct (x t) as [t1 [a|e]]; auto. now apply K. Qed.
Lemma keeps_call : forall e q, makes q = None -> keeps (call answer e q).
Proof. intros e q N t R. cbn [call fst]. apply regular_snoc; auto. congruence. Qed.
Lemma keeps_with : forall A begin (body : cid -> reply -> M A), (forall c, makes (begin c) = Some c) -> (forall c r, keeps (body c r)) -> keeps (with_ctx answer begin body).
Proof.
  intros A begin body B K t R. unfold with_ctx, call. set (c := S (length t)).
  assert (R1 : regular (t ++ [(begin c, answer t (begin c))])). { apply regular_snoc; auto. intros new E. rewrite B in E. now injection E as <-. }
  destruct (r_ok _); [|exact R1]. specialize (K c (answer t (begin c)) _ R1). destruct (body c _ _) as [t1 x]. cbn [fst] in *. apply regular_snoc; auto. discriminate.
Qed.
Lemma keeps_each : forall A B c (f : A -> M B) l, (forall x, In x l -> keeps (f x)) -> keeps (each answer c f l).
Proof.
  induction l as [|x l IH]; intros H; [apply keeps_ret|]. cbn [each]. apply keeps_bind; [apply H; now left|]. intros y. apply keeps_bind; [now apply keeps_call|].
  intros _. apply keeps_bind; [apply IH; intros; apply H; now right|]. intros ys. apply keeps_ret.
Qed.
Lemma keeps_all : forall A (f : A -> M unit) l, (forall x, In x l -> keeps (f x)) -> keeps (all f l).
Proof.
  induction l as [|x l IH]; intros H; [apply keeps_ret|]. cbn [all]. apply keeps_bind; [apply H; now left|]. intros _. apply IH. intros; apply H; now right.
Qed.
Lemma keeps_gather : forall f cs, (forall d, In d cs -> keeps (f d)) -> keeps (gather cs f).
Proof.
  induction cs as [|x l IH]; intros H; [apply keeps_ret|]. cbn [gather]. apply keeps_bind; [apply H; now left|]. intros y.
  apply keeps_bind; [apply IH; intros; apply H; now right|]. intros r. apply keeps_ret.
Qed.
Lemma keeps_get : forall dynamic xml_tbp nbc mode m p c, keeps (get_node answer dynamic xml_tbp nbc mode m p c).
Proof.
  intros dynamic xml_tbp nbc mode m. meta_induction m. intros p c. cbn [get_node]. destruct (omitted _ _ _ _); [apply keeps_ret|].
  destruct (locate _ _ _ _ _ _) as [[pl|]|e]; [|apply keeps_ret|apply keeps_fail]. destruct k.
  - apply keeps_bind; [|intros; apply keeps_ret]. apply keeps_gather. auto.
  - apply keeps_with; auto. intros new r. destruct (0 <? r_size r)%Z; [|apply keeps_ret]. apply keeps_bind; [|intros; apply keeps_ret].
    apply keeps_each. intros _ _. apply keeps_bind; [|intros; apply keeps_ret]. apply keeps_gather. auto.
  - apply keeps_bind; [now apply keeps_call|intros; apply keeps_ret].
Qed.
Lemma keeps_put : forall dynamic xml_tbp maxoccur nbc mode is_slice verify m n p c, keeps (put_node answer dynamic xml_tbp maxoccur nbc mode is_slice verify m n p c).
Proof.
  intros dynamic xml_tbp maxoccur nbc mode is_slice verify m. meta_induction m. intros nd p c. cbn [put_node]. destruct (omitted _ _ _ _); [apply keeps_ret|].
  destruct (locate _ _ _ _ _ _) as [[pl|]|e]; [|apply keeps_ret|apply keeps_fail].
  assert (PS : forall fs q c', keeps (all (fun d => match alookup (mname d) fs with Some ch => if has_value d ch then put_node answer dynamic xml_tbp maxoccur nbc mode is_slice verify d ch q c' else ret tt | None => ret tt end) cs)).
  { intros fs q c'. apply keeps_all. intros d D. destruct (alookup _ _); [|apply keeps_ret]. destruct (has_value _ _); [now apply IH|apply keeps_ret]. }
  destruct k; destruct nd as [fs|els|[v|]]; try apply keeps_ret; auto.
  - destruct (verify && _); [apply keeps_fail|]. apply keeps_with; auto. intros new r. apply keeps_bind; [|intros; apply keeps_ret]. apply keeps_each. intros e _. apply PS.
  - destruct (is_slice && _); [apply keeps_ret|]. apply keeps_bind; [now apply keeps_call|intros; apply keeps_ret].
Qed.
Lemma keeps_delete : forall dynamic c m p, keeps (delete_node answer dynamic c m p).
Proof.
  intros dynamic c m. meta_induction m. intros p. cbn [delete_node]. destruct k.
  - apply keeps_all. auto.
  - apply keeps_bind; [now apply keeps_call|intros; apply keeps_ret].
  - apply keeps_bind; [now apply keeps_call|intros; apply keeps_ret].
Qed.

(** * The operations as computations *)
Variable uda : bool.
Definition get_run (path : str) (constant : bool) (ps : params) dynamic xml_tbp nbc m : M outcome :=
  mbind (get_mode answer uda path) (fun mode =>
    match manager constant ps path with
    | Err e => fail e
    | Ok a => with_ctx answer (fun new => QBegin new a false) (fun c _ => mbind (get_children answer dynamic xml_tbp nbc mode m c) (fun n => ret (Got n)))
    end).
Lemma get_run_ok : forall path constant ps dynamic xml_tbp nbc m w,
  let x := al_get answer uda path constant ps dynamic xml_tbp nbc m w in
  (tr (fst x), snd x) = get_run path constant ps dynamic xml_tbp nbc m (tr w).
Proof.
  intros. unfold x, al_get, get_run, mbind. destruct (get_mode answer uda path (tr w)) as [t [mode|e]]; auto.
  destruct (manager constant ps path) as [a|e]; auto. unfold with_ctx, call. destruct (r_ok _); auto.
  destruct (get_children answer dynamic xml_tbp nbc mode m (S (length t)) _) as [t1 [n|e]]; auto.
Qed.
Definition op_run (o : op) : M outcome :=
  match o with
  | OGet path constant ps dynamic xml_tbp nbc m => get_run path constant ps dynamic xml_tbp nbc m
  | OPut path slice dynamic xml_tbp maxoccur nbc mode verify edyn em m n => al_put answer path slice dynamic xml_tbp maxoccur nbc mode verify edyn em m n
  | OVersion path => read_dd_version answer uda path
  | ODelete path => delete_data answer path
  end.
Lemma op_run_ok : forall o w, (tr (fst (step answer uda o w)), snd (step answer uda o w)) = op_run o (tr w).
Proof.
  intros [] w; [apply get_run_ok| | |]; cbn [step op_run]; unfold lift; match goal with |- context [?x (tr w)] => destruct (x (tr w)) end; reflexivity.
Qed.
Lemma keeps_op : forall o, keeps (op_run o).
Proof.
  intros []; cbn [op_run].
  - apply keeps_bind.
    + apply keeps_with; auto. intros c r. apply keeps_bind; [now apply keeps_call|]. intros rp. destruct (is_mode _); [apply keeps_ret|apply keeps_fail].
    + intros mode. destruct (manager _ _ _); [|apply keeps_fail]. apply keeps_with; auto. intros c r. apply keeps_bind; [|intros; apply keeps_ret].
      apply keeps_bind; [|intros; apply keeps_ret]. apply keeps_gather. intros d _. apply keeps_get.
  - apply keeps_bind.
    + unfold slice_mode. destruct slice; [|apply keeps_ret]. apply keeps_bind.
      * apply keeps_with; auto. intros c r. apply keeps_bind; [now apply keeps_call|intros; apply keeps_ret].
      * intros z. destruct (z =? EMPTY_INT)%Z; [apply keeps_ret|]. destruct (z =? mode)%Z; [apply keeps_ret|apply keeps_fail].
    + intros sl. apply keeps_bind.
      * destruct sl; [apply keeps_ret|]. apply keeps_with; auto. intros c r. apply keeps_all. intros d _. apply keeps_delete.
      * intros _. apply keeps_bind; [|intros; apply keeps_ret]. apply keeps_with; auto. intros c r. apply keeps_all. intros d _.
        destruct (alookup _ _); [|apply keeps_ret]. destruct (has_value _ _); [apply keeps_put|apply keeps_ret].
  - apply keeps_bind.
    + apply keeps_with; auto. intros c r. apply keeps_bind; [now apply keeps_call|]. intros rp. apply keeps_bind; [now apply keeps_call|intros; apply keeps_ret].
    + intros [z v]. destruct (is_mode z); [apply keeps_ret|apply keeps_fail].
  - apply keeps_with; auto. intros c r. apply keeps_fail.
Qed.

(** * Opening an occurrence *)
Local Notation tri := (tri (A:=_)).
Lemma tri_begin : forall A t a wr (body : cid -> reply -> M A) (P : list ev -> list frame -> result exn A -> Prop),
  let c := S (length t) in let r := answer t (QBegin c a wr) in
  (r_ok r = false -> P [(QBegin c a wr, r)] [] (Err lowlevel)) ->
  (r_ok r = true -> tri [FIDS c a wr] (t ++ [(QBegin c a wr, r)]) (body c r) (fun l F' x => F' = [FIDS c a wr] /\
     forall rE, P ((QBegin c a wr, r) :: l ++ [(QEnd c, rE)]) [] x)) ->
  tri [] t (with_ctx answer (fun new => QBegin new a wr) body) P.
Proof.
  intros A t a wr body P c r No Yes. apply (tri_with answer _ [] t (fun new => QBegin new a wr) _ _ (FIDS c a wr)); fold c; fold r; auto.
  intros O. eapply tri_weak; [now apply Yes|]. cbv beta. intros l F' x _ _ (-> & H). exists (FIDS c a wr). auto.
Qed.
Lemma arun_begin : forall c a wr r, r_ok r = true -> arun [] [(QBegin c a wr, r)] = Some [FIDS c a wr].
Proof. intros c a wr r O. cbn. now rewrite O. Qed.
Lemma still_begin : forall c a wr r, still [] [(QBegin c a wr, r)].
Proof. intros. apply still_one; [reflexivity|congruence]. Qed.
Lemma still_end : forall F c r, still F [(QEnd c, r)].
Proof. intros. apply still_one; [reflexivity|congruence]. Qed.

(** reading within an occurrence: [g] is what the store gives *)
Definition reads0 {A} (path : str) (t : list ev) (x : M A) (g : (action -> store -> store) -> store -> result StoreModel.exn A) : Prop :=
  tri [] t x (fun l F' r => F' = [] /\ still [] l /\ forall vw d0, answers answer vw d0 -> arun [] t = Some [] -> r = own (g vw (drun d0 [] t path))).
Lemma reads_begin : forall A t a (body : cid -> reply -> M A) g,
  (forall c r t', reads answer [FIDS c a false] t' (body c r) g) -> reads0 (path_of_action a) t (with_ctx answer (fun new => QBegin new a false) body) (fun vw s => g (seen vw [FIDS 0 a false] s)).
Proof.
  intros A t a body g H. apply tri_begin.
  - intros O. split; auto. split; [apply still_begin|]. intros vw d0 An T. exfalso. rewrite An in O. unfold ideal in O. rewrite T in O. discriminate.
  - intros O. eapply tri_weak; [apply H|]. cbv beta. intros l F' x R _ (-> & S1 & E1). split; auto. intros rE. split; auto. split.
    + match goal with |- still _ (?e :: l ++ ?z) => change (still [] ([e] ++ (l ++ z))) end. eapply still_app; [now apply arun_begin|apply still_begin|].
      eapply still_app; [exact R|auto|apply still_end].
    + intros vw d0 An T. rewrite (E1 vw d0 An); [|rewrite arun_app, T; now apply arun_begin]. rewrite (drun_app _ _ _ _ _ T), still_begin. reflexivity.
Qed.
Lemma reads0_bind : forall A B path t (x : M A) (f : A -> M B) g h, reads0 path t x g -> (forall a t', reads0 path t' (f a) (h a)) ->
  reads0 path t (mbind x f) (fun vw s => rbind (g vw s) (fun a => h a vw s)).
Proof.
  intros A B path t x f g h X K. eapply tri_bind; [exact X| |]; cbv beta.
  - intros l F' a (-> & S1 & E1) R Fi. eapply tri_weak; [apply K|]. cbv beta. intros l2 F2 r R2 _ (-> & S2 & E2). split; auto. split.
    + eapply still_app; eauto.
    + intros vw d0 An T. specialize (E1 vw d0 An T). destruct (g vw (drun d0 [] t path)) as [a'|e]; [|discriminate]. injection E1 as <-. cbn [rbind].
      rewrite (E2 vw d0 An); [|now rewrite arun_app, T]. now rewrite (drun_app _ _ _ _ _ T), S1.
  - intros l F' e (-> & S1 & E1) _ _. split; auto. split; auto. intros vw d0 An T. specialize (E1 vw d0 An T).
    destruct (g vw (drun d0 [] t path)) as [a'|e']; [discriminate|]. injection E1 as ->. reflexivity.
Qed.
Lemma reads_mode : forall F c t, usable F c = true -> writing F = false -> around F = [] ->
  reads answer F t (mbind (call answer lowlevel (QRead c mode_place INT 0)) (fun r => ret (mode_of r))) StoreModel.read_mode.
Proof.
  intros F c t U W A. eapply tri_bind; [apply (reads_read answer F t c mode_place INT 0 U W)| |]; cbv beta.
  - intros l F' rp (-> & S1 & E1) _ _. apply tri_ret. split; auto. rewrite app_nil_r. split; auto. intros vw d0 An T. specialize (E1 vw d0 An T).
    unfold StoreModel.read_mode, StoreModel.mode_key. rewrite A in E1. unfold mode_place in E1. destruct (StoreModel.read _ _ INT 0) as [v|e]; [|contradiction]. subst v. reflexivity.
  - intros l F' e (-> & S1 & E1) _ _. split; auto. split; auto. intros vw d0 An T. specialize (E1 vw d0 An T).
    unfold StoreModel.read_mode, StoreModel.mode_key. rewrite A in E1. unfold mode_place in E1. destruct (StoreModel.read _ _ INT 0) as [v|e']; [contradiction|]. subst e. reflexivity.
Qed.
Lemma reads_weaken : forall A path t (x : M A) (P : list ev -> list frame -> result exn A -> Prop) g, reads0 path t x g ->
  (forall l r, still [] l -> P l [] r) -> tri [] t x P.
Proof. intros A path t x P g H K. eapply tri_weak; [exact H|]. cbv beta. intros l F' r _ _ (-> & S & _). auto. Qed.

Lemma bind_assoc : forall A B C (x : M A) (f : A -> M B) (g : B -> M C) t, mbind (mbind x f) g t = mbind x (fun a => mbind (f a) g) t.
Proof. intros. unfold mbind. destruct (x t) as [t1 [a|e]]; auto. Qed.
Lemma tri_same : forall A F t (x y : M A) P, x t = y t -> tri F t x P -> tri F t y P.
Proof. intros A F t x y P E (l & F' & H). exists l, F'. now rewrite <- E. Qed.
Lemma reads_same : forall A F t (x y : M A) g, x t = y t -> reads answer F t x g -> reads answer F t y g.
Proof. intros A F t x y g E H. eapply tri_same; eauto. Qed.

Definition checked (s : store) : result StoreModel.exn Z := rbind (StoreModel.read_mode s) (fun z => if is_mode z then Ok z else Err StoreModel.TimeMode).
Lemma get_mode_reads : forall path t, reads0 path t (get_mode answer uda path) (fun _ => checked).
Proof.
  intros path t. unfold get_mode. apply (reads_begin _ t (AGlobal path (datapath uda)) _ checked). intros c r t'.
  apply (reads_same _ _ _ (mbind (mbind (call answer lowlevel (QRead c mode_place INT 0)) (fun r => ret (mode_of r)))
           (fun z => if is_mode z then ret z else fail (Own StoreModel.TimeMode)))); [rewrite bind_assoc; reflexivity|].
  apply (reads_bind answer _ _ _ _ _ _ StoreModel.read_mode (fun z _ => if is_mode z then Ok z else Err StoreModel.TimeMode)).
  - apply reads_mode; auto. cbn. now rewrite Nat.eqb_refl.
  - intros z t1. destruct (is_mode z); [now apply reads_ret|apply reads_fail; [discriminate|auto]].
Qed.
Lemma get_reads0 : forall path constant dynamic xml_tbp nbc m ps a t, manager constant ps path = Ok a ->
  reads0 path t (get_run path constant ps dynamic xml_tbp nbc m) (fun vw s => rbind (checked s) (fun mode =>
     rbind (StoreModel.get_children dynamic xml_tbp nbc mode (seen vw [FIDS 0 a false] s) m) (fun n => Ok (Got n)))).
Proof.
  intros path constant dynamic xml_tbp nbc m ps a t Ma.
  apply (reads0_bind _ _ path t _ _ (fun _ => checked) (fun mode vw s => rbind (StoreModel.get_children dynamic xml_tbp nbc mode (seen vw [FIDS 0 a false] s) m) (fun n => Ok (Got n)))).
  - apply get_mode_reads.
  - intros mode t1. rewrite Ma.
    assert (Pa : path = path_of_action a) by (unfold manager in Ma; destruct constant; [|destruct ps as [|? []|]]; inversion Ma; reflexivity). rewrite Pa at 1.
    apply (reads_begin _ t1 a _ (fun s => rbind (StoreModel.get_children dynamic xml_tbp nbc mode s m) (fun n => Ok (Got n)))). intros c r t2.
    apply (reads_bind answer _ _ _ _ _ _ (fun s => StoreModel.get_children dynamic xml_tbp nbc mode s m) (fun n _ => Ok (Got n))).
    + apply get_children_reads; auto. cbn. now rewrite Nat.eqb_refl.
    + intros n t3. now apply reads_ret.
Qed.
(** the version of the dictionary *)
Lemma version_reads : forall path t, reads0 path t (with_ctx answer (fun new => QBegin new (AGlobal path (datapath uda)) false) (fun c _ =>
    mbind (call answer lowlevel (QRead c mode_place INT 0)) (fun r => mbind (call answer lowlevel (QRead c version_place STR 0)) (fun d => ret (mode_of r, r_data d)))))
  (fun _ s => rbind (StoreModel.read_mode s) (fun z => rbind (StoreModel.read s ([], version_place) STR 0) (fun v => Ok (z, v)))).
Proof.
  intros path t. apply (reads_begin _ t (AGlobal path (datapath uda)) _ (fun s => rbind (StoreModel.read_mode s) (fun z => rbind (StoreModel.read s ([], version_place) STR 0) (fun v => Ok (z, v))))). intros c r t'.
  apply (reads_same _ _ _ (mbind (mbind (call answer lowlevel (QRead c mode_place INT 0)) (fun r => ret (mode_of r)))
           (fun z => mbind (mbind (call answer lowlevel (QRead c version_place STR 0)) (fun d => ret (r_data d))) (fun v => ret (z, v))))).
  { rewrite bind_assoc. unfold mbind, ret. destruct (call answer lowlevel (QRead c mode_place INT 0) t') as [t1 [a|e]]; auto. destruct (call answer lowlevel (QRead c version_place STR 0) t1) as [t2 [a2|e]]; auto. }
  apply (reads_bind answer _ _ _ _ _ _ StoreModel.read_mode (fun z s => rbind (StoreModel.read s ([], version_place) STR 0) (fun v => Ok (z, v)))).
  - apply reads_mode; auto. cbn. now rewrite Nat.eqb_refl.
  - intros z t1. apply (reads_bind answer _ _ _ _ _ _ (fun s => StoreModel.read s ([], version_place) STR 0) (fun v _ => Ok (z, v))); [|intros v t2; now apply reads_ret].
    assert (U : usable [FIDS c (AGlobal path (datapath uda)) false] c = true) by (cbn; now rewrite Nat.eqb_refl).
    eapply tri_bind; [apply (reads_read answer _ t1 c version_place STR 0 U eq_refl)| |]; cbv beta.
    + intros l F' rp (-> & S1 & E1) _ _. apply tri_ret. split; auto. rewrite app_nil_r. split; auto. intros vw d0 An T. specialize (E1 vw d0 An T).
      cbn [around] in E1. destruct (StoreModel.read _ _ STR 0) as [v|e]; [|contradiction]. subst v. reflexivity.
    + intros l F' e (-> & S1 & E1) _ _. split; auto. split; auto. intros vw d0 An T. specialize (E1 vw d0 An T).
      cbn [around] in E1. destruct (StoreModel.read _ _ STR 0) as [v|e']; [contradiction|]. subst e. reflexivity.
Qed.
(** any parameters *)
Lemma get_tri : forall path constant ps dynamic xml_tbp nbc m t,
  tri [] t (get_run path constant ps dynamic xml_tbp nbc m) (fun l F' r => F' = [] /\ still [] l).
Proof.
  intros path constant ps dynamic xml_tbp nbc m t. eapply tri_bind; [apply (get_mode_reads path t)| |]; cbv beta.
  - intros l F' mode (-> & S1 & _) R _. destruct (manager constant ps path) as [a|e] eqn:Ma.
    + eapply reads_weaken; [apply (reads_begin _ _ a _ (fun s => rbind (StoreModel.get_children dynamic xml_tbp nbc mode s m) (fun n => Ok (Got n))))|].
      * intros c r t2. apply (reads_bind answer _ _ _ _ _ _ (fun s => StoreModel.get_children dynamic xml_tbp nbc mode s m) (fun n _ => Ok (Got n))).
        -- apply get_children_reads; auto. cbn. now rewrite Nat.eqb_refl.
        -- intros n t3. now apply reads_ret.
      * intros l2 r S2. split; auto. eapply still_app; eauto.
    + assert (e = BadMethod) as -> by (unfold manager in Ma; destruct constant; [discriminate|]; destruct ps as [|? []|]; congruence).
      apply tri_fail; [split; discriminate|]. rewrite app_nil_r. auto.
  - intros l F' e (-> & S1 & _) _ _. auto.
Qed.
Lemma version_tri : forall path t, tri [] t (read_dd_version answer uda path) (fun l F' r => F' = [] /\ still [] l).
Proof.
  intros path t. unfold read_dd_version.
  assert (X : tri [] t (with_ctx answer (fun new => QBegin new (AGlobal path (datapath uda)) false) (fun c _ =>
      mbind (call answer lowlevel (QRead c mode_place INT 0)) (fun r => mbind (call answer lowlevel (QRead c version_place STR 0)) (fun d => ret (mode_of r, r_data d)))))
      (fun l F' r => F' = [] /\ still [] l)).
  { apply tri_begin.
    - intros _. split; auto. apply still_begin.
    - intros O. set (c := S (length t)) in *. set (F := [FIDS c (AGlobal path (datapath uda)) false]).
      assert (U : usable F c = true) by (cbn; now rewrite Nat.eqb_refl).
      assert (Fin : forall l rE, arun F l = Some F -> still F l -> still [] ((QBegin c (AGlobal path (datapath uda)) false, answer t (QBegin c (AGlobal path (datapath uda)) false)) :: l ++ [(QEnd c, rE)])).
      { intros l rE R S. match goal with |- still _ (?e :: l ++ ?z) => change (still [] ([e] ++ (l ++ z))) end. eapply still_app; [now apply arun_begin|apply still_begin|].
        eapply still_app; [exact R|auto|apply still_end]. }
      apply tri_weak with (P := fun l F' _ => F' = F /\ still F l); [|intros l F' r R _ (-> & S); split; auto].
      eapply tri_bind; [apply (reads_read answer F _ c mode_place INT 0 U eq_refl)| |]; cbv beta.
      + intros l F' rp (-> & S1 & _) R1 _. eapply tri_bind; [apply (reads_read answer F _ c version_place STR 0 U eq_refl)| |]; cbv beta.
        * intros l2 F2 rp2 (-> & S2 & _) R2 _. apply tri_ret. rewrite app_nil_r. split; auto. eapply still_app; eauto.
        * intros l2 F2 e (-> & S2 & _) R2 _. split; auto. eapply still_app; eauto.
      + intros l F' e (-> & S1 & _) _ _. auto. }
  eapply tri_bind; [exact X| |]; cbv beta.
  - intros l F' [z v] (-> & S) _ _. destruct (is_mode z); [apply tri_ret|apply tri_fail; [split; discriminate|]]; rewrite app_nil_r; auto.
  - auto.
Qed.
Lemma slice_reads : forall path slice mode t, reads0 path t (slice_mode answer path slice mode) (fun _ s =>
  if slice then rbind (StoreModel.read_mode s) (fun z => if (z =? EMPTY_INT)%Z then Ok false else if (z =? mode)%Z then Ok true else Err StoreModel.TimeModeChanged) else Ok false).
Proof.
  intros path slice mode t. unfold slice_mode. destruct slice.
  - apply (reads0_bind _ _ path t _ _ (fun _ => StoreModel.read_mode) (fun z _ _ => if (z =? EMPTY_INT)%Z then Ok false else if (z =? mode)%Z then Ok true else Err StoreModel.TimeModeChanged)).
    + apply (reads_begin _ t (AGlobal path []) _ StoreModel.read_mode). intros c r t'. apply reads_mode; auto. cbn. now rewrite Nat.eqb_refl.
    + intros z t1. destruct (z =? EMPTY_INT)%Z; [|destruct (z =? mode)%Z].
      * apply tri_ret. split; auto. split; [apply still_nil|auto].
      * apply tri_ret. split; auto. split; [apply still_nil|auto].
      * apply tri_fail; [split; discriminate|]. split; auto. split; [apply still_nil|auto].
  - apply tri_ret. split; auto. split; [apply still_nil|auto].
Qed.
(** what a computation does to the store of one occurrence *)
Definition changes (path : str) (l : list ev) (g : store -> store) : Prop := forall d, drun d [] l path = g (d path) /\ forall p, p <> path -> drun d [] l p = d p.
Lemma changes_still : forall path l, still [] l -> changes path l (fun s => s).
Proof. intros path l S d. split; intros; apply S. Qed.
Lemma changes_app : forall path a b g h, arun [] a = Some [] -> changes path a g -> changes path b h -> changes path (a ++ b) (fun s => h (g s)).
Proof.
  intros path a b g h R A B d. destruct (A d) as [A1 A2]. destruct (B (drun d [] a)) as [B1 B2]. rewrite (drun_app _ _ _ _ _ R). split.
  - now rewrite B1, A1.
  - intros p N. now rewrite B2, A2.
Qed.
Lemma written_still : forall F q r, written F (q, r) = [] -> written_all F [(q, r)] = [].
Proof. intros F q r W. cbn [written_all]. rewrite W. destruct (astep F (q, r)); auto. Qed.
(** the calls of a [with] around [l] *)
Lemma around_begin : forall c a wr r l rE, r_ok r = true -> arun [FIDS c a wr] l = Some [FIDS c a wr] ->
  (forall d p, drun d [] ((QBegin c a wr, r) :: l ++ [(QEnd c, rE)]) p = drun d [FIDS c a wr] l p) /\
  written_all [] ((QBegin c a wr, r) :: l ++ [(QEnd c, rE)]) = written_all [FIDS c a wr] l.
Proof.
  intros c a wr r l rE O R. match goal with |- context [?e :: l ++ ?z] => change (e :: l ++ z) with ([e] ++ (l ++ z)) end.
  pose proof (arun_begin c a wr r O) as R0. split.
  - intros d p. rewrite (drun_app _ _ _ _ _ R0), (drun_app _ _ _ _ _ R), still_end. apply drun_ext. intros q. apply still_begin.
  - rewrite (written_app _ _ _ _ R0), (written_app _ _ _ _ R). rewrite (written_still [] (QBegin c a wr) r eq_refl), (written_still [FIDS c a wr] (QEnd c) rE eq_refl). now rewrite app_nil_r.
Qed.


Lemma delete_stage : forall path (sl : bool) edyn em t,
  tri [] t (if sl then ret tt else with_ctx answer (fun new => QBegin new (AGlobal path []) true) (fun c _ => delete_children answer edyn c em))
    (fun l F' r => F' = [] /\ written_all [] l = [] /\ (forall e, r = Err e -> forallb fine l = false) /\ (forall d p, p <> path -> drun d [] l p = d p) /\
       (forallb fine l = true -> forall d, drun d [] l path = if sl then d path else StoreModel.delete_children edyn em (d path))).
Proof.
  intros path [] edyn em t.
  - apply tri_ret. repeat split; auto. discriminate.
  - apply tri_begin.
    + intros O. split; auto. split; [now apply written_still|]. split; [intros; cbn; unfold fine; cbn; now rewrite O|]. split; [intros; apply still_begin|].
      cbn. unfold fine. cbn. rewrite O. discriminate.
    + intros O. eapply tri_weak; [apply delete_children_alters|]. cbv beta. intros l F' r R _ (-> & W & N & Ot & G). split; auto. intros rE.
      destruct (around_begin _ _ _ _ l rE O R) as [D1 W1]. split; auto. split; [now rewrite W1|]. split.
      { intros e E. cbn [forallb]. rewrite forallb_app, (N e E). cbn. apply andb_false_r. } split.
      { intros d p P. rewrite D1. apply Ot. exact P. }
      cbn [forallb]. rewrite forallb_app. intros Fi d. apply andb_true_iff in Fi as [_ Fi]. apply andb_true_iff in Fi as [Fi _]. rewrite D1. now apply G.
Qed.
Lemma put_stage : forall path sl dynamic xml_tbp maxoccur nbc mode verify m n t, let o := StoreModel.put_children dynamic xml_tbp maxoccur nbc mode sl verify m n in
  tri [] t (with_ctx answer (fun new => QBegin new (write_action path sl) true) (fun c _ => put_children answer dynamic xml_tbp maxoccur nbc mode sl verify m n c))
    (fun l F' r => F' = [] /\ changes path l (fun s => apply_all s (written_all [] l)) /\
       exists rest, fst o = written_all [] l ++ rest /\ (forallb fine l = true -> rest = [] /\ res r (snd o))).
Proof.
  intros path sl dynamic xml_tbp maxoccur nbc mode verify m n t o.
  assert (Pa : path_of_action (write_action path sl) = path) by (destruct sl; reflexivity). apply tri_begin.
  - intros O. split; auto. rewrite written_still by reflexivity. split; [apply (changes_still path), still_begin|]. exists (fst o). split; auto.
    cbn. unfold fine. cbn. rewrite O. discriminate.
  - intros O. eapply tri_weak; [apply put_children_puts; auto; cbn; now rewrite Nat.eqb_refl|]. cbv beta. intros l F' r R _ (-> & S & rest & E & C). split; auto. intros rE.
    destruct (around_begin _ _ _ _ l rE O R) as [D1 W1]. split; auto. rewrite W1. split.
    + intros d. destruct (S d) as [S1 S2]. cbn [root] in S1, S2. rewrite Pa in S1, S2. split; [rewrite D1; exact S1|]. intros p P. rewrite D1. auto.
    + exists rest. split; auto. cbn [forallb]. rewrite forallb_app. intros Fi. apply andb_true_iff in Fi as [_ Fi]. apply andb_true_iff in Fi as [Fi _]. auto.
Qed.

Definition put_post path slice dynamic xml_tbp maxoccur nbc mode verify edyn em m n (t l : list ev) (r : result exn outcome) : Prop :=
  (forall d p, p <> path -> drun d [] l p = d p) /\
  (exists sl rest, (slice = false -> sl = false) /\ fst (StoreModel.put_children dynamic xml_tbp maxoccur nbc mode sl verify m n) = written_all [] l ++ rest /\
     (r = Ok Done -> rest = [])) /\
  (forall vw d0, answers answer vw d0 -> arun [] t = Some [] -> forallb fine l = true ->
     match StoreModel.al_put_calls dynamic xml_tbp maxoccur nbc mode verify edyn em slice (drun d0 [] t path) m n with
     | Err e => r = Err (Own e) /\ drun d0 [] (t ++ l) path = drun d0 [] t path
     | Ok (_, s, (calls, e)) => written_all [] l = calls /\ drun d0 [] (t ++ l) path = apply_all s calls /\ r = match e with None => Ok Done | Some e => Err (Own e) end
     end).
Lemma written_none : forall l F, Forall (fun e => forall F, written F e = []) l -> written_all F l = [].
Proof. induction l as [|e l IH]; intros F H; auto. inversion H as [|x y A B]; subst. cbn [written_all]. rewrite A. destruct (astep F e); cbn; auto. Qed.
Lemma slice_mode_trace : forall path slice mode t, exists l, fst (slice_mode answer path slice mode t) = t ++ l /\ Forall (fun e => forall F, written F e = []) l /\
  (slice = false -> l = [] /\ snd (slice_mode answer path slice mode t) = Ok false).
Proof.
  intros path [] mode t.
  - unfold slice_mode, mbind, with_ctx, call, end_action, ret. destruct (r_ok (answer t _)).
    + cbv zeta. destruct (r_ok (answer (t ++ _) _)).
      * destruct (_ =? EMPTY_INT)%Z; [|destruct (_ =? mode)%Z]; cbn [fst snd]; (eexists; split; [rewrite <- !app_assoc; reflexivity|]); (split; [repeat constructor|discriminate]).
      * cbn [fst snd]. eexists. split; [rewrite <- !app_assoc; reflexivity|]. split; [repeat constructor|discriminate].
    + cbn [fst snd]. eexists. split; [reflexivity|]. split; [repeat constructor|discriminate].
  - exists []. cbn. rewrite app_nil_r. auto.
Qed.
Lemma put_tri : forall path slice dynamic xml_tbp maxoccur nbc mode verify edyn em m n t,
  tri [] t (al_put answer path slice dynamic xml_tbp maxoccur nbc mode verify edyn em m n)
    (fun l F' r => F' = [] /\ put_post path slice dynamic xml_tbp maxoccur nbc mode verify edyn em m n t l r).
Proof.
  intros path slice dynamic xml_tbp maxoccur nbc mode verify edyn em m n t. unfold al_put.
  assert (Y : tri [] t (slice_mode answer path slice mode) (fun l F' r => F' = [] /\ still [] l /\ written_all [] l = [] /\ (slice = false -> r = Ok false) /\
     forall vw d0, answers answer vw d0 -> arun [] t = Some [] -> r = own (if slice then rbind (StoreModel.read_mode (drun d0 [] t path)) (fun z => if (z =? EMPTY_INT)%Z then Ok false else if (z =? mode)%Z then Ok true else Err StoreModel.TimeModeChanged) else Ok false))).
  { destruct (slice_reads path slice mode t) as (l & F' & E & R & H & -> & S & C). destruct (slice_mode_trace path slice mode t) as (l' & E' & W & Sl).
    rewrite E in E'. apply app_inv_head in E'. subst l'. exists l, []. repeat split; auto.
    - now apply written_none.
    - intros X. now apply Sl. }
  eapply tri_bind; [exact Y| |]; cbv beta.
  - intros l1 F1 sl (-> & S1 & W1 & Sl & E1) R1 Fi1.
    assert (SlF : slice = false -> sl = false) by (intros X; specialize (Sl X); now injection Sl).
    eapply tri_bind; [apply (delete_stage path sl edyn em)| |]; cbv beta.
    + intros l2 F2 u (-> & W2 & N2 & O2 & G2) R2 Fi2.
      assert (R12 : arun [] (l1 ++ l2) = Some []) by (now rewrite arun_app, R1).
      assert (O12 : forall d p, p <> path -> drun d [] (l1 ++ l2) p = d p) by (intros d p P; rewrite (drun_app _ _ _ _ _ R1), O2, S1; auto).
      assert (Main : forall l3 (r : result exn outcome) rest, arun [] l3 = Some [] -> changes path l3 (fun s => apply_all s (written_all [] l3)) ->
         fst (StoreModel.put_children dynamic xml_tbp maxoccur nbc mode sl verify m n) = written_all [] l3 ++ rest ->
         (r = Ok Done -> rest = []) ->
         (forallb fine l3 = true -> rest = [] /\ r = match snd (StoreModel.put_children dynamic xml_tbp maxoccur nbc mode sl verify m n) with None => Ok Done | Some e => Err (Own e) end) ->
         put_post path slice dynamic xml_tbp maxoccur nbc mode verify edyn em m n t ((l1 ++ l2) ++ l3) r).
      { intros l3 r rest R3 C3 E3 Ok3 Fin3.
        assert (W3 : written_all [] ((l1 ++ l2) ++ l3) = written_all [] l3) by (rewrite (written_app _ _ _ _ R12), (written_app _ _ _ _ R1), W1, W2; auto).
        split; [|split].
        - intros d p P. rewrite (drun_app _ _ _ _ _ R12). rewrite (proj2 (C3 _) p P). auto.
        - exists sl, rest. rewrite W3. auto.
        - intros vw d0 An T Fi. rewrite forallb_app in Fi. apply andb_true_iff in Fi as [_ Fi3]. destruct (Fin3 Fi3) as [-> ->]. rewrite app_nil_r in E3.
          specialize (E1 vw d0 An T). unfold StoreModel.al_put_calls.
          set (sm := if slice then _ else Ok false) in E1. replace (if slice then _ else Ok false) with sm by (unfold sm; destruct slice; auto).
          destruct sm as [sl'|e]; [|discriminate E1]. injection E1 as <-. cbn [rbind].
          destruct (StoreModel.put_children dynamic xml_tbp maxoccur nbc mode sl verify m n) as [calls e] eqn:Pc. cbn [fst snd] in *. rewrite W3. split; auto. split; auto.
          assert (T12 : arun [] (t ++ (l1 ++ l2)) = Some []) by (now rewrite arun_app, T).
          rewrite app_assoc, (drun_app _ _ _ _ _ T12). rewrite (proj1 (C3 _)). rewrite E3. f_equal.
          assert (T1 : arun [] (t ++ l1) = Some []) by (now rewrite arun_app, T).
          rewrite app_assoc, (drun_app _ _ _ _ _ T1), (G2 Fi2), (drun_app _ _ _ _ _ T). destruct sl; rewrite S1; reflexivity. }
      eapply tri_bind; [apply (put_stage path sl)| |]; cbv beta.
      * intros l3 F3 u' (-> & C3 & rest & E3 & Fin3) R3 Fi3. apply tri_ret. split; auto. rewrite app_nil_r, app_assoc.
        destruct (Fin3 Fi3) as [-> Re]. apply Main with (rest := []); auto. intros _. split; auto. unfold res in Re. destruct (snd _); [discriminate Re|auto].
      * intros l3 F3 e (-> & C3 & rest & E3 & Fin3) R3 Ha. split; auto. rewrite app_assoc. apply Main with (rest := rest); auto; [discriminate|].
        intros Fi. destruct (Fin3 Fi) as [-> Re]. split; auto. unfold res in Re. destruct (snd _); [congruence|destruct Re; discriminate].
    + intros l2 F2 e (-> & W2 & N2 & O2 & G2) R2 Ha. split; auto. split; [|split].
      * intros d p P. rewrite (drun_app _ _ _ _ _ R1), O2, S1; auto.
      * exists sl, (fst (StoreModel.put_children dynamic xml_tbp maxoccur nbc mode sl verify m n)). rewrite (written_app _ _ _ _ R1), W1, W2. split; auto. split; auto. discriminate.
      * intros vw d0 An T Fi. rewrite forallb_app, (N2 e eq_refl), andb_false_r in Fi. discriminate.
  - intros l1 F1 e (-> & S1 & W1 & Sl & E1) R1 Ha. split; auto. split; [|split].
    + intros. apply S1.
    + exists false, (fst (StoreModel.put_children dynamic xml_tbp maxoccur nbc mode false verify m n)). rewrite W1. split; auto. split; auto. discriminate.
    + intros vw d0 An T _. specialize (E1 vw d0 An T). unfold StoreModel.al_put_calls.
      set (sm := if slice then _ else Ok false) in E1. replace (if slice then _ else Ok false) with sm by (unfold sm; destruct slice; auto).
      destruct sm as [sl'|e']; [discriminate E1|]. injection E1 as ->. cbn [rbind]. split; auto. rewrite (drun_app _ _ _ _ _ T). apply S1.
Qed.
Lemma op_tri : forall o t, (forall path, o <> ODelete path) -> tri [] t (op_run o) (fun l F' r => F' = []).
Proof.
  intros [] t N; cbn [op_run].
  - eapply tri_weak; [apply get_tri|]. cbv beta. intros l F' r _ _ (-> & _). auto.
  - eapply tri_weak; [apply put_tri|]. cbv beta. intros l F' r _ _ (-> & _). auto.
  - eapply tri_weak; [apply version_tri|]. cbv beta. intros l F' r _ _ (-> & _). auto.
  - exfalso. now apply (N path).
Qed.
Lemma delete_trace : forall path t, exists l, fst (delete_data answer path t) = t ++ l /\ arun [] l = Some [] /\ still [] l /\
  snd (delete_data answer path t) = Err (if forallb fine l then BadArguments else lowlevel).
Proof.
  intros path t. unfold delete_data, with_ctx, call, end_action, fail. set (c := S (length t)). set (q := QBegin c (AGlobal path []) true). destruct (r_ok (answer t q)) eqn:O.
  - eexists [(q, answer t q); (QEnd c, _)]. cbn [fst snd]. rewrite <- app_assoc. split; [reflexivity|].
    assert (R0 : arun [] [(q, answer t q)] = Some [FIDS c (AGlobal path []) true]) by (now apply arun_begin). split; [|split].
    + match goal with |- arun _ (?e :: ?z) = _ => change (arun [] ([e] ++ z) = Some []) end. rewrite arun_app, R0. cbn [arun astep fid]. now rewrite Nat.eqb_refl.
    + match goal with |- still _ (?e :: ?z) => change (still [] ([e] ++ z)) end. eapply still_app; [exact R0|apply still_begin|apply still_end].
    + cbn. unfold fine. cbn. now rewrite O.
  - exists [(q, answer t q)]. cbn [fst snd]. split; auto. split; [|split].
    + cbn. now rewrite O.
    + apply still_begin.
    + cbn. unfold fine. cbn. now rewrite O.
Qed.
End Regular.
