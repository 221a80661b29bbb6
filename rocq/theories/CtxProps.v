(** Property theorems about lazy Access Layer contexts (C33). *)
From Verif Require Import Base CtxModel.

(* ---- specification ---- *)

(** The Access Layer's view: open contexts, most recent first, with the path they were opened with and, for arrays, the current index;
    contexts ever opened; whether the data entry is open.  Only the most recent context may be used: to open another context in it, to
    move it, to read, to end it. *)
Record al := { a_stack : list (cid * (str * Z)); a_used : list cid; a_open : bool }.
Definition top (a : al) : cid := match a_stack a with (c, _) :: _ => c | [] => 0 end.
Definition al_step (a : al) (e : ev) : option al :=
  if negb (a_open a) then None else
  match e with
  | EvOpen p c path => if Nat.eqb (top a) p && negb (existsb (Nat.eqb c) (0 :: a_used a))
                       then Some {| a_stack := (c, (path, 0%Z)) :: a_stack a; a_used := c :: a_used a; a_open := true |} else None
  | EvOpenFailed p _ => if Nat.eqb (top a) p then Some a else None
  | EvIter c step => match a_stack a with
                     | (d, (path, i)) :: t => if Nat.eqb c d then Some {| a_stack := (d, (path, i + step)%Z) :: t; a_used := a_used a; a_open := true |} else None
                     | [] => None
                     end
  | EvIterFailed c _ | EvRead c _ => match a_stack a with (d, _) :: _ => if Nat.eqb c d then Some a else None | [] => None end
  | EvEnd c => match a_stack a with
               | (d, _) :: t => if Nat.eqb c d then Some {| a_stack := t; a_used := a_used a; a_open := true |} else None
               | [] => None
               end
  | EvEager => match a_stack a with [] => Some a | _ => None end
  | EvClose ok => match a_stack a with [] => Some {| a_stack := []; a_used := a_used a; a_open := negb ok |} | _ => None end
  end.
Definition al_run (t : list ev) : option al :=
  fold_left (fun a e => match a with Some a => al_step a e | None => None end) t (Some {| a_stack := []; a_used := []; a_open := true |}).

(** Where the structure with a lazy context is: array paths (relative) and indices from the top; the first item is the IDS. *)
Inductive located (os : list lobj) : lid -> list (str * Z) -> Prop :=
| loc_root : forall o ob, nth_error os o = Some ob -> l_kind ob = KRoot -> located os o []
| loc_ids : forall o ob path r, nth_error os o = Some ob -> l_kind ob = KAction path -> l_parent ob = Some r -> located os r [] -> located os o [(path, 0%Z)]
| loc_item : forall o ob i a oa path p l, nth_error os o = Some ob -> l_kind ob = KItem i -> l_parent ob = Some a ->
    nth_error os a = Some oa -> l_kind oa = KAos path -> l_parent oa = Some p -> located os p l -> located os o (l ++ [(path, i)]).

(* ---- invariant ---- *)

Definition struct_kind (k : lkind) : Prop := match k with KAction _ | KItem _ => True | _ => False end.
Definition parent_ok (os : list lobj) (o : lid) (ob : lobj) : Prop :=
  match l_kind ob with
  | KRoot => l_parent ob = None /\ l_live ob = true
  | KAction _ => l_live ob = true /\ exists p op, l_parent ob = Some p /\ p < o /\ nth_error os p = Some op /\ l_kind op = KRoot
  | KAos _ => exists p op, l_parent ob = Some p /\ p < o /\ nth_error os p = Some op /\ struct_kind (l_kind op)
  | KItem _ => exists p op path, l_parent ob = Some p /\ p < o /\ nth_error os p = Some op /\ l_kind op = KAos path
  end.
Definition objs_ok (os : list lobj) : Prop := forall o ob, nth_error os o = Some ob -> parent_ok os o ob.

(** The context of object [o], opened with [path] and standing at [i] on top of [below]. *)
Definition owns (os : list lobj) (o : lid) (path : str) (i : Z) (below : list (cid * (str * Z))) : Prop :=
  exists ob par, nth_error os o = Some ob /\ l_parent ob = Some par /\ located os par (rev (map snd below)) /\
    (l_kind ob = KAction path /\ i = 0%Z \/ l_kind ob = KAos path).

Record inv (s : st) (a : al) : Prop := {
  i_run : al_run (trace s) = Some a;
  i_alive : a_open a = alive s;
  i_cache : map fst (a_stack a) = cache s;
  i_cur : forall c p i, In (c, (p, i)) (a_stack a) -> cur s c = i;
  i_used : forall c, In c (a_used a) -> 0 < c < next s;
  i_next : 0 < next s;
  i_in : forall c, In c (cache s) -> In c (a_used a);
  i_nodup : NoDup (cache s);
  i_ctx : forall o c, ctx_of s o = Some c -> In c (a_used a);
  i_obj : forall o c, ctx_of s o = Some c -> exists ob par, nth_error (objs s) o = Some ob /\ l_parent ob = Some par;
  i_inj : forall o o' c, ctx_of s o = Some c -> ctx_of s o' = Some c -> o = o';
  i_own : forall o c above path i below, ctx_of s o = Some c -> a_stack a = above ++ (c, (path, i)) :: below -> owns (objs s) o path i below;
  i_objs : objs_ok (objs s);
  i_dead : alive s = false -> cache s = []
}.

(** Real contexts that fit a lazy object. *)
Definition fits (s : st) (a : al) (o : lid) (c : cid) : Prop :=
  exists ob, nth_error (objs s) o = Some ob /\
  match l_kind ob with
  | KRoot => c = 0 /\ a_stack a = []
  | KAction path => exists rest, a_stack a = (c, (path, 0%Z)) :: rest /\ owns (objs s) o path 0 rest /\ ctx_of s o = Some c
  | KAos path => exists i rest, a_stack a = (c, (path, i)) :: rest /\ owns (objs s) o path i rest /\ ctx_of s o = Some c
  | KItem i => exists path rest, a_stack a = (c, (path, i)) :: rest /\ located (objs s) o (rev (map snd (a_stack a)))
  end.

(* ---- proofs ---- *)

Lemma al_app : forall t t', al_run (t ++ t') = fold_left (fun a e => match a with Some a => al_step a e | None => None end) t' (al_run t).
Proof. intros. unfold al_run. now rewrite fold_left_app. Qed.
Lemma al_snoc : forall t e a, al_run t = Some a -> al_run (t ++ [e]) = al_step a e.
Proof. intros t e a H. rewrite al_app, H. reflexivity. Qed.

Lemma nil_stack : forall s a, inv s a -> (cache s = [] <-> a_stack a = []).
Proof. intros s a H. rewrite <- (i_cache _ _ H). destruct (a_stack a); simpl; split; auto; discriminate. Qed.

(** Popping. *)
Lemma pop_spec : forall c l l' es, pop_to c l = (l', es) -> exists above, l = above ++ l' /\ es = map EvEnd above /\ (l' = [] \/ exists t, l' = c :: t).
Proof.
  induction l as [|x l IH]; simpl; intros l' es H; [injection H as <- <-; exists []; auto|]. destruct (Nat.eqb x c) eqn:E.
  - apply Nat.eqb_eq in E; subst. injection H as <- <-. exists []. split; auto. split; auto. right; eauto.
  - destruct (pop_to c l) as [l1 es1]. injection H as <- <-. destruct (IH l1 es1 eq_refl) as (ab & A & B & C). exists (x :: ab). subst. auto.
Qed.
Lemma pop_In : forall c l l' es, pop_to c l = (l', es) -> In c l -> exists t, l' = c :: t.
Proof.
  induction l as [|x l IH]; simpl; intros l' es H I; [tauto|]. destruct (Nat.eqb x c) eqn:E.
  - apply Nat.eqb_eq in E; subst. injection H as <- <-. eauto.
  - destruct (pop_to c l) as [l1 es1]. injection H as <- <-. eapply IH; eauto. destruct I as [->|I]; auto. now rewrite Nat.eqb_refl in E.
Qed.

Lemma al_ends : forall above t a rest, al_run t = Some a -> a_open a = true -> map fst (a_stack a) = above ++ rest ->
  exists a', al_run (t ++ map EvEnd above) = Some a' /\ a_open a' = true /\ a_used a' = a_used a /\ exists gone, a_stack a = gone ++ a_stack a' /\ map fst gone = above.
Proof.
  induction above as [|c above IH]; intros t a rest R O M.
  - simpl. rewrite app_nil_r. exists a. repeat split; auto. exists []. auto.
  - destruct (a_stack a) as [|[d pi] stk] eqn:S; [discriminate|]. simpl in M. injection M as -> M.
    destruct (IH (t ++ [EvEnd c]) {| a_stack := stk; a_used := a_used a; a_open := true |} rest) as (a' & A & B & C & gone & D & E); auto.
    { rewrite (al_snoc _ _ _ R). unfold al_step. rewrite O, S. simpl. now rewrite Nat.eqb_refl. }
    exists a'. rewrite <- app_assoc in A. simpl in *. repeat split; auto. exists ((c, pi) :: gone). simpl. subst. split; congruence.
Qed.

(** The invariant after dropping the top of the stack. *)
Lemma inv_pop : forall s a above rest, inv s a -> alive s = true -> cache s = above ++ rest ->
  let s' := {| objs := objs s; ctx_of := ctx_of s; cache := rest; cur := cur s; alive := alive s; next := next s; trace := trace s ++ map EvEnd above |} in
  exists a', inv s' a' /\ exists gone, a_stack a = gone ++ a_stack a'.
Proof.
  intros s a above rest H Al M s'. destruct H. rewrite M in *.
  destruct (al_ends above (trace s) a rest) as (a' & A & B & C & gone & D & E); auto; [congruence|].
  exists a'. split; [|eauto]. assert (F : map fst (a_stack a') = rest).
  { rewrite D, map_app, E in i_cache0. now apply app_inv_head in i_cache0. }
  unfold s'. constructor; cbn [objs ctx_of cache cur alive next trace]; auto; try congruence.
  - intros c p i I. apply (i_cur0 c p i). rewrite D. apply in_app_iff; auto.
  - rewrite C. exact i_used0.
  - rewrite C. intros c I. apply i_in0. apply in_app_iff; auto.
  - clear - i_nodup0. induction above as [|x ab IH]; auto. inversion i_nodup0; auto.
  - rewrite C. exact i_ctx0.
  - intros o c ab path i below X Y. apply (i_own0 o c (gone ++ ab) path i below X). rewrite D, Y, app_assoc. reflexivity.
Qed.

Lemma inv_pop_until : forall s a c, inv s a -> alive s = true -> let s' := pop_until s c in
  exists a', inv s' a' /\ objs s' = objs s /\ alive s' = true /\ ctx_of s' = ctx_of s /\ (cache s' = [] \/ exists t, cache s' = c :: t).
Proof.
  intros s a c H Al s'. unfold s', pop_until. destruct (pop_to c (cache s)) as [l es] eqn:P. destruct (pop_spec _ _ _ _ P) as (ab & A & -> & B).
  destruct (inv_pop s a ab l H Al A) as (a' & I & _). exists a'. simpl. auto.
Qed.

Lemma inv_clear : forall s a, inv s a -> alive s = true -> exists a', inv (clear s) a' /\ a_stack a' = [].
Proof.
  intros s a H Al. destruct (inv_pop s a (cache s) [] H Al) as (a' & I & _); [now rewrite app_nil_r|]. exists a'.
  split; [exact I|]. apply (nil_stack _ _ I). reflexivity.
Qed.

(** Calls that change nothing. *)
Lemma inv_emit : forall s a e a', inv s a -> al_step a e = Some a' -> a' = a -> inv (emit s e) a.
Proof.
  intros s a e a' H E ->. destruct H. constructor; simpl; auto. now rewrite (al_snoc _ _ _ i_run0).
Qed.

(** [owns] and [located] depend on the objects only. *)
Lemma inv_open : forall s a o ob par k path, inv s a -> alive s = true -> nth_error (objs s) o = Some ob -> l_parent ob = Some par ->
  (l_kind ob = KAction path \/ l_kind ob = KAos path) -> top a = k -> located (objs s) par (rev (map snd (a_stack a))) ->
  let s' := {| objs := objs s; ctx_of := upd (ctx_of s) o (Some (next s)); cache := next s :: cache s; cur := upd (cur s) (next s) 0%Z; alive := alive s;
               next := S (next s); trace := trace s ++ [EvOpen k (next s) path] |} in
  exists a', inv s' a' /\ a_stack a' = (next s, (path, 0%Z)) :: a_stack a /\ owns (objs s) o path 0 (a_stack a).
Proof.
  intros s a o ob par k path H Al No Pa Ki To Lo s'.
  assert (Ow : owns (objs s) o path 0 (a_stack a)) by (exists ob, par; repeat split; auto; tauto).
  destruct H. exists {| a_stack := (next s, (path, 0%Z)) :: a_stack a; a_used := next s :: a_used a; a_open := true |}. split; [|auto].
  assert (Nu : ~ In (next s) (a_used a)) by (intros X; apply i_used0 in X; lia).
  unfold s'. constructor; cbn [objs ctx_of cache cur alive next trace a_stack a_used a_open]; auto; try (rewrite Al; auto; discriminate).
  - rewrite (al_snoc _ _ _ i_run0). unfold al_step. rewrite i_alive0, Al. cbn [negb]. rewrite To, Nat.eqb_refl. cbn [andb].
    match goal with |- context [if negb ?b then _ else _] => assert (X : b = false); [|rewrite X; reflexivity] end.
    apply not_true_iff_false. intros X. apply existsb_exists in X as (y & [<-|I] & Y); apply Nat.eqb_eq in Y; [lia|]. subst. auto.
  - simpl. now rewrite i_cache0.
  - intros c p i [E|I]; [injection E as <- <- <-; unfold upd; now rewrite Nat.eqb_refl|]. unfold upd. destruct (Nat.eqb c (next s)) eqn:E; eauto.
    apply Nat.eqb_eq in E; subst. exfalso. apply Nu. apply i_in0. rewrite <- i_cache0. now apply (in_map fst) in I.
  - intros c [<-|I]; [lia|]. apply i_used0 in I. lia.
  - intros c [<-|I]; [left; auto|right; auto].
  - apply NoDup_cons; [intros X; apply Nu; auto|auto].
  - intros o' c. unfold upd. destruct (Nat.eqb o' o); [intros X; injection X as <-; left; auto|intros X; right; eauto].
  - intros o' c. unfold upd. destruct (Nat.eqb o' o) eqn:E; [|eauto]. apply Nat.eqb_eq in E; subst. eauto.
  - intros o1 o2 c. unfold upd. destruct (Nat.eqb o1 o) eqn:E1, (Nat.eqb o2 o) eqn:E2.
    + apply Nat.eqb_eq in E1, E2. congruence.
    + intros X Y. injection X as <-. exfalso. apply i_ctx0 in Y. auto.
    + intros X Y. injection Y as <-. exfalso. apply i_ctx0 in X. auto.
    + eauto.
  - intros o' c ab path' i below X Y. unfold upd in X. destruct ab as [|x ab]; simpl in Y.
    + injection Y as <- <- <- <-. destruct (Nat.eqb o' o) eqn:E; [apply Nat.eqb_eq in E; subst; auto|]. exfalso. apply i_ctx0 in X. auto.
    + injection Y as <- Y. destruct (Nat.eqb o' o) eqn:E; [|eapply i_own0; eauto]. injection X as <-. exfalso. apply Nu. apply i_in0.
      rewrite <- i_cache0, Y, map_app. apply in_app_iff. right. left; auto.
Qed.

Lemma app_cons_inv {A} : forall (l : list A) x above y below, x :: l = above ++ y :: below -> (above = [] /\ x = y /\ l = below) \/ exists t, above = x :: t /\ l = t ++ y :: below.
Proof. intros l x [|z t] y below H; simpl in H; injection H as -> ->; eauto. Qed.

Lemma inv_iter : forall s a o ob c path i rest j, inv s a -> alive s = true -> nth_error (objs s) o = Some ob -> l_kind ob = KAos path -> ctx_of s o = Some c ->
  a_stack a = (c, (path, i)) :: rest ->
  let s' := {| objs := objs s; ctx_of := ctx_of s; cache := cache s; cur := upd (cur s) c j; alive := alive s; next := next s;
               trace := trace s ++ [EvIter c (j - i)%Z] |} in
  exists a', inv s' a' /\ a_stack a' = (c, (path, j)) :: rest.
Proof.
  intros s a o ob c path i rest j H Al No Ki Cx St s'. destruct H.
  exists {| a_stack := (c, (path, j)) :: rest; a_used := a_used a; a_open := true |}. split; [|auto].
  assert (Nd : ~ In c (map fst rest)). { rewrite <- i_cache0, St in i_nodup0. inversion i_nodup0; auto. }
  unfold s'. constructor; cbn [objs ctx_of cache cur alive next trace a_stack a_used a_open]; auto; try (rewrite Al; auto; discriminate).
  - rewrite (al_snoc _ _ _ i_run0). unfold al_step. rewrite i_alive0, Al. cbn [negb]. rewrite St, Nat.eqb_refl. replace (i + (j - i))%Z with j by lia. reflexivity.
  - rewrite <- i_cache0, St. reflexivity.
  - intros d p k [E|I]; [injection E as <- <- <-; unfold upd; now rewrite Nat.eqb_refl|]. unfold upd. destruct (Nat.eqb d c) eqn:E.
    + apply Nat.eqb_eq in E; subst. exfalso. apply Nd. now apply (in_map fst) in I.
    + apply (i_cur0 d p k). rewrite St. right; auto.
  - intros o' d ab path' k below X Y. apply app_cons_inv in Y as [(-> & E & ->)|(t & -> & Y)].
    + injection E as -> -> ->. assert (o' = o) by eauto. subst. destruct (i_own0 o d [] path' i below X St) as (ob' & par & A & B & C & D).
      exists ob', par. repeat split; auto. rewrite No in A. injection A as <-. right. auto.
    + apply (i_own0 o' d ((c, (path, i)) :: t) path' k below X). rewrite St, Y. reflexivity.
Qed.

(** Splits a conjunction as written. *)
Ltac sp := match goal with |- _ /\ _ => split; [|sp] | _ => idtac end.

Lemma located_root : forall os o l ob, located os o l -> nth_error os o = Some ob -> l_kind ob = KRoot -> l = [].
Proof. intros os o l ob H N K. destruct H; auto; congruence. Qed.

Section Main.
Variable lingers : nat -> cid -> bool.
Variable succeeds : nat -> bool.
Notation get_context := (get_context lingers succeeds).
Notation step := (step lingers succeeds).
Notation run := (run lingers succeeds).

Lemma deref_ctx : forall s o c, deref lingers s o = Some c -> ctx_of s o = Some c.
Proof. intros s o c H. unfold deref in H. destruct (ctx_of s o) as [d|]; [|discriminate]. destruct (_ || _); congruence. Qed.

Lemma get_spec : forall fuel s a o s' r, inv s a -> alive s = true -> get_context fuel s o = (s', r) ->
  exists a', inv s' a' /\ objs s' = objs s /\ alive s' = true /\ (forall c, r = Ok c -> fits s' a' o c).
Proof.
  induction fuel as [|fuel IH]; intros s a o s' r H Al G; simpl in G; [injection G as <- <-; exists a; sp; auto; discriminate|].
  destruct (nth_error (objs s) o) as [ob|] eqn:No; [|injection G as <- <-; exists a; sp; auto; discriminate].
  pose proof (i_objs _ _ H o ob No) as Po. unfold parent_ok in Po.
  (* the case of contexts that are cached: common part *)
  assert (Common : forall path, (l_kind ob = KAction path \/ l_kind ob = KAos path) -> forall par, l_parent ob = Some par ->
    (forall s1 a1 s2 pc, inv s1 a1 -> alive s1 = true -> objs s1 = objs s -> get_context fuel s1 par = (s2, Ok pc) ->
       exists a2, inv s2 a2 /\ objs s2 = objs s /\ alive s2 = true /\ top a2 = pc /\ located (objs s) par (rev (map snd (a_stack a2)))) ->
    (if negb (Bool.eqb (alive s) (l_live ob)) then (s, Err Gone)
     else match deref lingers s o, cache (match deref lingers s o with Some c => pop_until s c | None => s end) with
          | Some c, _ :: _ => (match deref lingers s o with Some c => pop_until s c | None => s end, Ok c)
          | _, _ => match get_context fuel (match deref lingers s o with Some c => pop_until s c | None => s end) par with
                    | (s2, Ok pc) => open_ctx succeeds s2 o pc path
                    | (s2, Err e) => (s2, Err e)
                    end
          end) = (s', r) ->
    exists a', inv s' a' /\ objs s' = objs s /\ alive s' = true /\ (forall c, r = Ok c -> fits s' a' o c)).
  { intros path Ki par Pa Rec G'. destruct (negb (Bool.eqb (alive s) (l_live ob))); [injection G' as <- <-; exists a; sp; auto; discriminate|].
    set (s1 := match deref lingers s o with Some c => pop_until s c | None => s end) in G'.
    assert (S1 : exists a1, inv s1 a1 /\ objs s1 = objs s /\ alive s1 = true /\ ctx_of s1 = ctx_of s /\
              forall c, deref lingers s o = Some c -> cache s1 = [] \/ exists t, cache s1 = c :: t).
    { unfold s1. destruct (deref lingers s o) as [c|] eqn:D.
      - destruct (inv_pop_until s a c H Al) as (a1 & A & B & C & E & F). exists a1. sp; auto. intros c' X. injection X as <-. auto.
      - exists a. sp; auto. discriminate. }
    destruct S1 as (a1 & I1 & O1 & A1 & C1 & D1).
    assert (Rest : match get_context fuel s1 par with (s2, Ok pc) => open_ctx succeeds s2 o pc path | (s2, Err e) => (s2, Err e) end = (s', r) ->
              exists a', inv s' a' /\ objs s' = objs s /\ alive s' = true /\ (forall c, r = Ok c -> fits s' a' o c)).
    { intros X. destruct (get_context fuel s1 par) as [s2 [pc|e]] eqn:Gp.
      - destruct (Rec s1 a1 s2 pc I1 A1 O1 Gp) as (a2 & I2 & O2 & A2 & T2 & L2). unfold open_ctx in X. destruct (succeeds (now s2)).
        + injection X as <- <-. rewrite <- O2 in No, L2.
          destruct (inv_open s2 a2 o ob par pc path I2 A2 No Pa Ki T2 L2) as (a' & I' & St & Ow). exists a'. sp; auto.
          intros c E. injection E as <-. exists ob. split; [exact No|]. destruct Ki as [K|K]; rewrite K.
          * exists (a_stack a2). cbn [objs ctx_of]. sp; auto. unfold upd. now rewrite Nat.eqb_refl.
          * exists 0%Z, (a_stack a2). cbn [objs ctx_of]. sp; auto. unfold upd. now rewrite Nat.eqb_refl.
        + injection X as <- <-. exists a2. sp; auto; [|discriminate]. eapply inv_emit; eauto. unfold al_step.
          rewrite (i_alive _ _ I2), A2. cbn [negb]. now rewrite T2, Nat.eqb_refl.
      - injection X as <- <-. destruct (IH s1 a1 par s2 (Err e) I1 A1 Gp) as (a2 & I2 & O2 & A2 & _). exists a2. sp; auto; [congruence|discriminate]. }
    destruct (deref lingers s o) as [c|] eqn:D; [|apply Rest; destruct (cache s1); exact G'].
    destruct (cache s1) as [|x t] eqn:Cs; [apply Rest; exact G'|]. injection G' as <- <-. exists a1. sp; auto.
    intros c' X. injection X as <-. destruct (D1 c eq_refl) as [E|(t' & E)]; [discriminate|]. injection E as -> ->.
    rewrite <- O1 in No. apply deref_ctx in D. rewrite <- C1 in D. exists ob. split; auto.
    pose proof (i_cache _ _ I1) as M. rewrite Cs in M. destruct (a_stack a1) as [|[d [q i]] rest] eqn:St; [discriminate|]. simpl in M. injection M as -> _.
    pose proof (i_own _ _ I1 o c [] q i rest D) as Ow. rewrite St in Ow. specialize (Ow eq_refl).
    pose proof Ow as (ob' & par' & A & B & E & F). rewrite No in A. injection A as <-.
    destruct F as [[F ->]|F]; rewrite F; [exists rest|exists i, rest]; auto. }
  destruct (l_kind ob) as [|path|path|i] eqn:K.
  - (* root *)
    destruct Po as [P Lv]. rewrite P, Lv, Al in G. cbn [Bool.eqb negb] in G.
    assert (D : deref lingers s o = None).
    { destruct (deref lingers s o) as [c|] eqn:D; auto. exfalso. apply deref_ctx in D.
      destruct (i_obj _ _ H o c D) as (ob' & par & A & B). rewrite No in A. injection A as <-. congruence. }
    rewrite D in G. injection G as <- <-. destruct (inv_clear s a H Al) as (a' & I & E). exists a'. sp; auto.
    intros c X. injection X as <-. exists ob. split; auto. rewrite K. auto.
  - destruct Po as [Lv (p & op & P & Lt & Np & Kp)]. rewrite P in G. apply (Common path (or_introl eq_refl) p P); [|exact G].
    intros s1 a1 s2 pc I1 A1 O1 Gp. destruct (IH s1 a1 p s2 (Ok pc) I1 A1 Gp) as (a2 & I2 & O2 & A2 & F). exists a2.
    specialize (F pc eq_refl) as (ob2 & N2 & F). rewrite O2, O1 in N2. rewrite Np in N2. injection N2 as <-. rewrite Kp in F. destruct F as [-> F].
    sp; auto; [congruence| |]; unfold top; rewrite F; auto. simpl. eapply loc_root; eauto.
  - destruct Po as (p & op & P & Lt & Np & Kp). rewrite P in G. apply (Common path (or_intror eq_refl) p P); [|exact G].
    intros s1 a1 s2 pc I1 A1 O1 Gp. destruct (IH s1 a1 p s2 (Ok pc) I1 A1 Gp) as (a2 & I2 & O2 & A2 & F). exists a2. rewrite O1 in O2.
    specialize (F pc eq_refl) as (ob2 & N2 & F). rewrite O2 in N2. rewrite Np in N2. injection N2 as <-. unfold struct_kind in Kp.
    destruct (l_kind op) as [|q|q|i] eqn:Kq; try tauto.
    + destruct F as (rest & St & Ow & _). sp; auto; [unfold top; now rewrite St|]. rewrite O2 in Ow. destruct Ow as (ob' & par & A & B & C & D).
      rewrite Np in A. injection A as <-. pose proof (i_objs _ _ H p op Np) as Q. unfold parent_ok in Q. rewrite Kq in Q. destruct Q as [_ (r0 & or & R1 & _ & R2 & R3)].
      rewrite B in R1. injection R1 as <-. assert (rest = []) as ->.
      { apply (located_root _ _ _ _ C R2) in R3. apply (f_equal (@length _)) in R3. rewrite rev_length, map_length in R3. destruct rest; [auto|discriminate]. }
      rewrite St. simpl. eapply loc_ids; eauto using loc_root.
    + destruct F as (q & rest & St & Lo). sp; auto; [unfold top; now rewrite St|]. now rewrite <- O2.
  - destruct Po as (p & op & path & P & Lt & Np & Kp). rewrite P in G. destruct (get_context fuel s p) as [s1 [c|e]] eqn:Gp.
    + destruct (IH s a p s1 (Ok c) H Al Gp) as (a1 & I1 & O1 & A1 & F). specialize (F c eq_refl) as (ob2 & N2 & F). rewrite O1 in N2. rewrite Np in N2. injection N2 as <-.
      rewrite Kp in F. destruct F as (k & rest & St & Ow & Cx). pose proof (i_cur _ _ I1 c path k) as Cu. rewrite St in Cu. specialize (Cu (or_introl eq_refl)).
      assert (Fit : forall s2 a2, objs s2 = objs s -> a_stack a2 = (c, (path, i)) :: rest -> fits s2 a2 o c).
      { intros s2 a2 O2 S2. exists ob. rewrite O2. split; auto. rewrite K. exists path, rest. split; auto. rewrite S2. simpl.
        rewrite O1 in Ow. destruct Ow as (ob' & par & A & B & C & D). rewrite Np in A. injection A as <-. eapply loc_item; eauto. }
      unfold iterate_to in G. rewrite Cu in G. destruct (i - k =? 0)%Z eqn:E0.
      * injection G as <- <-. exists a1. sp; auto. intros c' X. injection X as <-. apply Fit; auto. rewrite St. do 3 f_equal. lia.
      * rewrite <- O1 in Np. destruct (succeeds (now s1)).
        -- injection G as <- <-. destruct (inv_iter s1 a1 p op c path k rest i I1 A1 Np Kp Cx St) as (a2 & I2 & S2). exists a2. sp; auto.
           intros c' X. injection X as <-. apply Fit; auto.
        -- injection G as <- <-. exists a1. sp; auto; [|discriminate]. eapply inv_emit; eauto. unfold al_step. rewrite (i_alive _ _ I1), A1. cbn [negb]. now rewrite St, Nat.eqb_refl.
    + injection G as <- <-. destruct (IH s a p s1 (Err e) H Al Gp) as (a1 & I1 & O1 & A1 & F). exists a1. sp; auto. discriminate.
Qed.

Lemma pop_nil : forall s c, cache s = [] -> pop_until s c = s.
Proof. intros [a b ca d e f t] c H. simpl in H. subst. unfold pop_until. simpl. now rewrite app_nil_r. Qed.

Lemma get_dead : forall fuel s a o s' r, inv s a -> alive s = false -> get_context fuel s o = (s', r) -> s' = s /\ exists e, r = Err e.
Proof.
  induction fuel as [|fuel IH]; intros s a o s' r H Al G; simpl in G; [injection G as <- <-; eauto|].
  destruct (nth_error (objs s) o) as [ob|] eqn:No; [|injection G as <- <-; eauto].
  pose proof (i_objs _ _ H o ob No) as Po. unfold parent_ok in Po. pose proof (i_dead _ _ H Al) as Ca.
  destruct (l_kind ob) as [|path|path|i].
  - destruct Po as [_ Lv]. rewrite Lv, Al in G. injection G as <- <-. eauto.
  - destruct Po as [Lv _]. rewrite Lv, Al in G. injection G as <- <-. eauto.
  - destruct Po as (p & op & P & _). rewrite P in G. destruct (negb _); [injection G as <- <-; eauto|].
    assert (E : match deref lingers s o with Some c => pop_until s c | None => s end = s) by (destruct (deref lingers s o); auto using pop_nil).
    rewrite E, Ca in G. destruct (get_context fuel s p) as [s2 r2] eqn:Gp. destruct (IH s a p s2 r2 H Al Gp) as (-> & e & ->).
    destruct (deref lingers s o); injection G as <- <-; eauto.
  - destruct Po as (p & op & path & P & _). rewrite P in G. destruct (get_context fuel s p) as [s2 r2] eqn:Gp. destruct (IH s a p s2 r2 H Al Gp) as (-> & e & ->).
    injection G as <- <-. eauto.
Qed.

Lemma nth_mono : forall (os : list lobj) x o ob, nth_error os o = Some ob -> nth_error (os ++ [x]) o = Some ob.
Proof. intros os x o ob H. rewrite nth_error_app1; auto. apply nth_error_Some. congruence. Qed.
Lemma located_mono : forall os x o l, located os o l -> located (os ++ [x]) o l.
Proof. intros os x o l H. induction H; [eapply loc_root|eapply loc_ids|eapply loc_item]; eauto using nth_mono. Qed.
Lemma parent_mono : forall os x o ob, parent_ok os o ob -> parent_ok (os ++ [x]) o ob.
Proof.
  intros os x o ob. unfold parent_ok. destruct (l_kind ob); auto.
  - intros (L & p & op & A & B & C & D). split; auto. exists p, op. auto using nth_mono.
  - intros (p & op & A & B & C & D). exists p, op. auto using nth_mono.
  - intros (p & op & pa & A & B & C & D). exists p, op, pa. auto using nth_mono.
Qed.

Lemma inv_add : forall s a k p, inv s a ->
  parent_ok (objs s) (length (objs s)) {| l_kind := k; l_parent := p; l_live := alive s |} -> inv (add_obj s k p) a.
Proof.
  intros s a k p H P. pose proof H as H0. destruct H. unfold add_obj.
  assert (N : forall o c, upd (ctx_of s) (length (objs s)) None o = Some c -> ctx_of s o = Some c).
  { intros o c. unfold upd. destruct (Nat.eqb o (length (objs s))); auto. discriminate. }
  constructor; cbn [objs ctx_of cache cur alive next trace]; auto.
  - intros o c X. eauto.
  - intros o c X. destruct (i_obj0 o c (N _ _ X)) as (ob & par & A & B). exists ob, par. auto using nth_mono.
  - intros o o' c X Y. eauto.
  - intros o c ab path i below X Y. destruct (i_own0 o c ab path i below (N _ _ X) Y) as (ob & par & A & B & C & D). exists ob, par. sp; auto using nth_mono, located_mono.
  - intros o ob X. destruct (Nat.lt_ge_cases o (length (objs s))) as [L|L].
    + rewrite nth_error_app1 in X by auto. apply parent_mono. auto.
    + rewrite nth_error_app2 in X by auto. destruct (o - length (objs s)) as [|m] eqn:E; [|destruct m; discriminate]. injection X as <-.
      replace o with (length (objs s)) by lia. now apply parent_mono.
Qed.

Lemma struct_located : forall s a o c ob, inv s a -> fits s a o c -> nth_error (objs s) o = Some ob -> struct_kind (l_kind ob) ->
  top a = c /\ a_stack a <> [] /\ located (objs s) o (rev (map snd (a_stack a))).
Proof.
  intros s a o c ob H (ob' & N' & F) N K. rewrite N in N'. injection N' as <-. unfold struct_kind in K. destruct (l_kind ob) as [|q|q|i] eqn:Kq; try tauto.
  - destruct F as (rest & St & Ow & _). destruct Ow as (ob' & par & A & B & C & D). rewrite N in A. injection A as <-.
    pose proof (i_objs _ _ H o ob N) as Q. unfold parent_ok in Q. rewrite Kq in Q. destruct Q as [_ (r0 & or & R1 & _ & R2 & R3)].
    rewrite B in R1. injection R1 as <-. assert (rest = []) as ->.
    { apply (located_root _ _ _ _ C R2) in R3. apply (f_equal (@length _)) in R3. rewrite rev_length, map_length in R3. destruct rest; [auto|discriminate]. }
    unfold top. rewrite St. sp; auto; [discriminate|]. eapply loc_ids; eauto.
  - destruct F as (q & rest & St & Lo). unfold top. rewrite St in *. sp; auto. discriminate.
Qed.

Lemma step_inv : forall s a op, inv s a -> exists a', inv (fst (step s op)) a'.
Proof.
  intros s a op H. destruct (alive s) eqn:Al.
  - destruct (inv_clear s a H Al) as (ac & Ic & Sc).
    assert (Ie : inv (emit (clear s) EvEager) ac).
    { eapply inv_emit; eauto. unfold al_step. rewrite (i_alive _ _ Ic). simpl. rewrite Al, Sc. reflexivity. }
    destruct op as [path|o path|o path|o|o i| |]; cbn [CtxModel.step].
    + rewrite Al. cbn [negb fst]. exists ac.
      assert (I1 : inv (add_obj (emit (clear s) EvEager) KRoot None) ac) by (apply inv_add; [auto|split; auto]).
      apply inv_add; [exact I1|]. unfold parent_ok. simpl. split; [auto|]. exists (length (objs s)), {| l_kind := KRoot; l_parent := None; l_live := alive s |}.
      sp; auto; [rewrite app_length; simpl; lia|]. rewrite nth_error_app2 by lia. now rewrite Nat.sub_diag.
    + unfold kind_of. destruct (nth_error (objs s) o) as [ob|] eqn:No; [|cbn; eauto]. cbn [option_map].
      assert (G : struct_kind (l_kind ob) -> exists a', inv (fst (match context lingers succeeds s o with
          | (s1, Ok c) => let ok := succeeds (now s1) in (emit s1 (EvRead c path), if ok then Ok tt else Err CallFailed)
          | (s1, Err e) => (s1, Err e) end)) a').
      { intros K. unfold context. destruct (get_context (S o) s o) as [s1 r] eqn:G. destruct (get_spec _ _ _ _ _ _ H Al G) as (a1 & I1 & O1 & A1 & F).
        destruct r as [c|e]; [|cbn; eauto]. cbn [fst]. exists a1. rewrite <- O1 in No. destruct (struct_located s1 a1 o c ob I1 (F c eq_refl) No K) as (T & E & _).
        eapply inv_emit; eauto. unfold al_step. rewrite (i_alive _ _ I1), A1. cbn [negb]. unfold top in T. destruct (a_stack a1) as [|[d q] t]; [congruence|]. subst. now rewrite Nat.eqb_refl. }
      destruct (l_kind ob); try (cbn; eauto; fail); apply G; exact I.
    + unfold kind_of. destruct (nth_error (objs s) o) as [ob|] eqn:No; [|cbn; eauto]. cbn [option_map].
      assert (G : struct_kind (l_kind ob) -> inv (add_obj s (KAos path) (Some o)) a).
      { intros K. apply inv_add; auto. unfold parent_ok; simpl. exists o, ob. sp; auto. apply nth_error_Some. congruence. }
      destruct (l_kind ob); try (cbn; eauto; fail); exists a; apply G; exact I.
    + unfold kind_of. destruct (nth_error (objs s) o) as [ob|] eqn:No; [|cbn; eauto]. cbn [option_map].
      destruct (l_kind ob) eqn:K; try (cbn; eauto; fail). unfold context. destruct (get_context (S o) s o) as [s1 r] eqn:G.
      destruct (get_spec _ _ _ _ _ _ H Al G) as (a1 & I1 & _). destruct r; cbn; eauto.
    + unfold kind_of. destruct (nth_error (objs s) o) as [ob|] eqn:No; [|cbn; eauto]. cbn [option_map].
      destruct (l_kind ob) as [|q|q|j] eqn:K; try (cbn; eauto; fail). exists a. apply inv_add; auto. unfold parent_ok; simpl. exists o, ob, q. sp; auto. apply nth_error_Some. congruence.
    + rewrite Al. cbn; eauto.
    + rewrite Al. cbn [negb]. destruct (succeeds (now (clear s))); cbn [fst].
      * exists {| a_stack := []; a_used := a_used ac; a_open := false |}. destruct Ic. constructor; cbn [objs ctx_of cache cur alive next trace a_stack a_used a_open] in *; auto.
        -- rewrite (al_snoc _ _ _ i_run0). unfold al_step. rewrite i_alive0, Sc. simpl. rewrite Al. reflexivity.
        -- intros c p i [].
        -- intros o c [|? ?] ? ? ? ? X; discriminate X.
      * exists ac. eapply inv_emit; eauto. unfold al_step. rewrite (i_alive _ _ Ic). simpl. rewrite Al, Sc. simpl. destruct ac; simpl in *. subst. f_equal. f_equal. symmetry. transitivity (alive s); [exact (i_alive _ _ Ic)|exact Al].
  - assert (G : forall o s1 r, context lingers succeeds s o = (s1, r) -> s1 = s /\ exists e, r = Err e) by (intros; eapply get_dead; eauto).
    destruct op as [path|o path|o path|o|o i| |]; cbn [CtxModel.step]; rewrite ?Al; try (cbn; eauto; fail).
    + unfold kind_of. destruct (nth_error (objs s) o) as [ob|] eqn:No; [|cbn; eauto]. cbn [option_map].
      destruct (context lingers succeeds s o) as [s1 r] eqn:Cx. destruct (G o s1 r Cx) as (-> & e & ->). destruct (l_kind ob); cbn; eauto.
    + unfold kind_of. destruct (nth_error (objs s) o) as [ob|] eqn:No; [|cbn; eauto]. cbn [option_map].
      assert (G' : struct_kind (l_kind ob) -> inv (add_obj s (KAos path) (Some o)) a).
      { intros K. apply inv_add; auto. unfold parent_ok; simpl. exists o, ob. sp; auto. apply nth_error_Some. congruence. }
      destruct (l_kind ob); try (cbn; eauto; fail); exists a; apply G'; exact I.
    + unfold kind_of. destruct (nth_error (objs s) o) as [ob|] eqn:No; [|cbn; eauto]. cbn [option_map].
      destruct (context lingers succeeds s o) as [s1 r] eqn:Cx. destruct (G o s1 r Cx) as (-> & e & ->). destruct (l_kind ob); cbn; eauto.
    + unfold kind_of. destruct (nth_error (objs s) o) as [ob|] eqn:No; [|cbn; eauto]. cbn [option_map].
      destruct (l_kind ob) as [|q|q|j] eqn:K; try (cbn; eauto; fail). exists a. apply inv_add; auto. unfold parent_ok; simpl. exists o, ob, q. sp; auto. apply nth_error_Some. congruence.
Qed.

Lemma inv_start : inv start {| a_stack := []; a_used := []; a_open := true |}.
Proof.
  constructor; simpl; auto; try discriminate; try tauto.
  - constructor.
  - intros o ob X. destruct o; discriminate.
Qed.
Lemma run_inv : forall ops s a, inv s a -> exists a', inv (run s ops) a'.
Proof. induction ops as [|op ops IH]; simpl; intros s a H; eauto. destruct (step_inv s a op H) as (a1 & I1). eauto. Qed.

(** The calls made obey the discipline of the Access Layer: contexts are ended in stack order, nothing is done with a context after
    its end or while a context opened in it is open, nothing after the close of the entry. *)
Theorem C33_stack_order : forall ops, exists a, al_run (trace (run start ops)) = Some a /\ map fst (a_stack a) = cache (run start ops).
Proof. intros ops. destruct (run_inv ops _ _ inv_start) as (a & H). exists a. split; apply H. Qed.

(** Every read happens while the open contexts are exactly those of the enclosing arrays, each at the index of the element being read. *)
Theorem C33_right_index : forall ops o path s', let s := run start ops in
  step s (LRead o path) = (s', Ok tt) ->
  exists t c a, trace s' = t ++ [EvRead c path] /\ al_run t = Some a /\ top a = c /\ c <> 0 /\ located (objs s) o (rev (map snd (a_stack a))).
Proof.
  intros ops o path s' s St. destruct (run_inv ops _ _ inv_start) as (a & H). fold s in H. cbn [CtxModel.step] in St. unfold kind_of in St.
  destruct (nth_error (objs s) o) as [ob|] eqn:No; [|simpl in St; congruence]. cbn [option_map] in St.
  assert (G : struct_kind (l_kind ob) -> match context lingers succeeds s o with
          | (s1, Ok c) => let ok := succeeds (now s1) in (emit s1 (EvRead c path), if ok then Ok tt else Err CallFailed)
          | (s1, Err e) => (s1, Err e) end = (s', Ok tt) ->
          exists t c a, trace s' = t ++ [EvRead c path] /\ al_run t = Some a /\ top a = c /\ c <> 0 /\ located (objs s) o (rev (map snd (a_stack a)))).
  { intros K X. destruct (alive s) eqn:Al.
    - unfold context in X. destruct (get_context (S o) s o) as [s1 r1] eqn:G. destruct (get_spec _ _ _ _ _ _ H Al G) as (a1 & I1 & O1 & A1 & F).
      destruct r1 as [d|e]; [|discriminate].
      injection X as <- _. exists (trace s1), d, a1. split; [auto|]. split; [apply I1|].
      rewrite <- O1 in No. destruct (struct_located s1 a1 o d ob I1 (F d eq_refl) No K) as (T & E & L). split; auto. rewrite <- O1. split; auto.
      unfold top in T. pose proof (i_in _ _ I1 d) as U. pose proof (i_cache _ _ I1) as M. destruct (a_stack a1) as [|[x y] z]; [congruence|].
      subst x. rewrite <- M in U. pose proof (i_used _ _ I1 d (U (or_introl eq_refl))). lia.
    - exfalso. destruct (context lingers succeeds s o) as [s1 r1] eqn:Cx. destruct (get_dead _ _ _ _ _ _ H Al Cx) as (-> & e & ->). discriminate. }
  destruct (l_kind ob); try discriminate St; apply G; auto; exact I.
Qed.

(** The same for the size of an array. *)
Theorem C33_right_array : forall ops o ob s', let s := run start ops in nth_error (objs s) o = Some ob ->
  step s (LSize o) = (s', Ok tt) ->
  exists a path par c i below, l_kind ob = KAos path /\ l_parent ob = Some par /\ al_run (trace s') = Some a /\
    a_stack a = (c, (path, i)) :: below /\ located (objs s) par (rev (map snd below)) /\ ctx_of s' o = Some c.
Proof.
  intros ops o ob s' s No St. destruct (run_inv ops _ _ inv_start) as (a & H). fold s in H. cbn [CtxModel.step] in St. unfold kind_of in St.
  rewrite No in St. cbn [option_map] in St. destruct (l_kind ob) as [|q|q|j] eqn:K; try discriminate St.
  unfold context in St. destruct (get_context (S o) s o) as [s1 r1] eqn:G. destruct r1 as [c|e]; [|discriminate]. injection St as <-.
  destruct (alive s) eqn:Al; [|destruct (get_dead _ _ _ _ _ _ H Al G) as (_ & e & E); discriminate].
  destruct (get_spec _ _ _ _ _ _ H Al G) as (a1 & I1 & O1 & A1 & F). destruct (F c eq_refl) as (ob' & N' & F'). rewrite O1 in N'. rewrite No in N'. injection N' as <-.
  rewrite K in F'. destruct F' as (i & rest & S1 & Ow & Cx). destruct Ow as (ob' & par & A & B & C & D). rewrite O1 in A, C. rewrite No in A. injection A as <-.
  exists a1, q, par, c, i, rest. sp; auto. apply I1.
Qed.

(** When the entry is open and no call fails, every access of an existing object succeeds. *)
Lemma get_ok : (forall n, succeeds n = true) -> forall fuel s a o, inv s a -> alive s = true -> (forall o ob, nth_error (objs s) o = Some ob -> l_live ob = true) ->
  o < fuel -> o < length (objs s) -> exists c, snd (get_context fuel s o) = Ok c.
Proof.
  intros Su. induction fuel as [|fuel IH]; intros s a o H Al Lv Lt Le; [lia|]. cbn [CtxModel.get_context].
  destruct (nth_error (objs s) o) as [ob|] eqn:No; [|apply nth_error_None in No; lia].
  pose proof (i_objs _ _ H o ob No) as Po. unfold parent_ok in Po. rewrite (Lv _ _ No), Al. cbn [Bool.eqb negb].
  assert (S1 : exists a1, inv (match deref lingers s o with Some c => pop_until s c | None => s end) a1 /\
     objs (match deref lingers s o with Some c => pop_until s c | None => s end) = objs s /\ alive (match deref lingers s o with Some c => pop_until s c | None => s end) = true).
  { destruct (deref lingers s o) as [c|]; [destruct (inv_pop_until s a c H Al) as (a1 & A & B & C & _); eauto|eauto]. }
  set (s1 := match deref lingers s o with Some c => pop_until s c | None => s end) in *. destruct S1 as (a1 & I1 & O1 & A1).
  assert (Open : forall p k, l_parent ob = Some p -> p < o -> exists c, snd (match get_context fuel s1 p with
       | (s2, Ok pc) => open_ctx succeeds s2 o pc k | (s2, Err e) => (s2, Err e) end) = Ok c).
  { intros p k P L. destruct (IH s1 a1 p I1 A1) as (c & E); [rewrite O1; auto|lia|rewrite O1; lia|]. destruct (get_context fuel s1 p) as [s2 r2]. simpl in E. subst.
    unfold open_ctx. rewrite Su. simpl. eauto. }
  destruct (l_kind ob) as [|path|path|i].
  - destruct Po as [P _]. rewrite P. destruct (deref lingers s o), (cache s1); cbn; eauto.
  - destruct Po as [_ (p & op & P & L & _)]. rewrite P. destruct (deref lingers s o), (cache s1); try (apply Open; auto); cbn; eauto.
  - destruct Po as (p & op & P & L & _). rewrite P. destruct (deref lingers s o), (cache s1); try (apply Open; auto); cbn; eauto.
  - destruct Po as (p & op & q & P & L & _). rewrite P. destruct (IH s a p H Al Lv) as (c & E); [lia|lia|]. destruct (get_context fuel s p) as [s2 r2]. simpl in E. subst.
    unfold iterate_to. destruct (_ =? 0)%Z; [cbn; eauto|]. rewrite Su. cbn; eauto.
Qed.

Lemma get_keeps : forall fuel s o, objs (fst (get_context fuel s o)) = objs s /\ alive (fst (get_context fuel s o)) = alive s.
Proof.
  assert (Pu : forall s c, objs (pop_until s c) = objs s /\ alive (pop_until s c) = alive s) by (intros; unfold pop_until; destruct (pop_to c (cache s)); auto).
  induction fuel as [|fuel IH]; intros s o; cbn [CtxModel.get_context]; [auto|]. destruct (nth_error (objs s) o) as [ob|]; [|auto].
  assert (S1 : objs (match deref lingers s o with Some c => pop_until s c | None => s end) = objs s /\ alive (match deref lingers s o with Some c => pop_until s c | None => s end) = alive s).
  { destruct (deref lingers s o); auto. }
  set (s1 := match deref lingers s o with Some c => pop_until s c | None => s end) in *.
  assert (Op : forall p k, objs (fst (match get_context fuel s1 p with (s2, Ok pc) => open_ctx succeeds s2 o pc k | (s2, Err e) => (s2, Err e) end)) = objs s /\
                         alive (fst (match get_context fuel s1 p with (s2, Ok pc) => open_ctx succeeds s2 o pc k | (s2, Err e) => (s2, Err e) end)) = alive s).
  { intros p k. specialize (IH s1 p). destruct (get_context fuel s1 p) as [s2 [c|e]]; cbn [fst] in *; [|intuition congruence].
    unfold open_ctx. destruct (succeeds (now s2)); cbn; intuition congruence. }
  destruct (l_kind ob) as [|path|path|i].
  1-3: destruct (negb _); [auto|]; destruct (deref lingers s o), (cache s1), (l_parent ob); try apply Op; cbn; auto.
  destruct (l_parent ob) as [p|]; [|auto]. specialize (IH s p). destruct (get_context fuel s p) as [s2 [c|e]]; cbn [fst] in *; auto.
  unfold iterate_to. destruct (_ =? 0)%Z; [auto|]. destruct (succeeds (now s2)); cbn; auto.
Qed.

Lemma live_run : forall ops s, (alive s = true -> forall o ob, nth_error (objs s) o = Some ob -> l_live ob = true) ->
  alive (run s ops) = true -> forall o ob, nth_error (objs (run s ops)) o = Some ob -> l_live ob = true.
Proof.
  induction ops as [|op ops IH]; simpl; intros s H; auto. apply IH. clear IH.
  assert (Add : forall s k p, (alive s = true -> forall o ob, nth_error (objs s) o = Some ob -> l_live ob = true) ->
     alive (add_obj s k p) = true -> forall o ob, nth_error (objs (add_obj s k p)) o = Some ob -> l_live ob = true).
  { clear. intros s k p H A o ob N. simpl in *. destruct (Nat.lt_ge_cases o (length (objs s))) as [L|L].
    - rewrite nth_error_app1 in N by auto. eauto.
    - rewrite nth_error_app2 in N by auto. destruct (o - length (objs s)) as [|m]; [injection N as <-; auto|destruct m; discriminate]. }
  destruct op as [path|o path|o path|o|o i| |]; cbn [CtxModel.step].
  - destruct (negb (alive s)); [exact H|]. cbn [fst]. apply Add. apply Add. exact H.
  - destruct (kind_of s o) as [[]|]; try exact H; unfold context; pose proof (get_keeps (S o) s o) as [A B]; destruct (get_context (S o) s o) as [s1 [c|e]]; cbn [fst] in *; simpl; rewrite ?A, ?B; exact H.
  - destruct (kind_of s o) as [[]|]; try exact H; cbn [fst]; apply Add; exact H.
  - destruct (kind_of s o) as [[]|]; try exact H; unfold context; pose proof (get_keeps (S o) s o) as [A B]; destruct (get_context (S o) s o) as [s1 [c|e]]; cbn [fst] in *; simpl; rewrite ?A, ?B; exact H.
  - destruct (kind_of s o) as [[]|]; try exact H; cbn [fst]; apply Add; exact H.
  - destruct (negb (alive s)); exact H.
  - destruct (negb (alive s)); [exact H|]. destruct (succeeds _); cbn [fst]; [discriminate|exact H].
Qed.

Theorem C33_available : (forall n, succeeds n = true) -> forall ops o path, let s := run start ops in
  alive s = true -> (exists l, located (objs s) o l /\ l <> []) -> snd (step s (LRead o path)) = Ok tt.
Proof.
  intros Su ops o path s Al (l & L & Ne). destruct (run_inv ops _ _ inv_start) as (a & H). fold s in H.
  assert (Lv : forall o ob, nth_error (objs s) o = Some ob -> l_live ob = true).
  { apply (live_run ops start); auto. intros _ [|x] ob X; discriminate. }
  assert (Lt : o < length (objs s)) by (destruct L; apply nth_error_Some; congruence).
  destruct (get_ok Su (S o) s a o H Al Lv) as (c & G); auto. cbn [CtxModel.step]. unfold kind_of.
  assert (E : snd (match context lingers succeeds s o with
          | (s1, Ok c) => let ok := succeeds (now s1) in (emit s1 (EvRead c path), if ok then Ok tt else Err CallFailed)
          | (s1, Err e) => (s1, Err e) end) = Ok tt).
  { unfold context. destruct (get_context (S o) s o) as [s1 r]. simpl in G. subst. cbn. now rewrite Su. }
  destruct L as [o ob N K|o ob q r N K|o ob i x oa q p l N K]; [congruence| |]; rewrite N; simpl; rewrite K; exact E.
Qed.

(** After the close of the entry nothing is called any more, and reads are refused. *)
Theorem C33_closed : forall ops ops' o path, let s := run start ops in alive s = false ->
  trace (run s ops') = trace s /\ snd (step s (LRead o path)) <> Ok tt.
Proof.
  intros ops ops' o path s Al. destruct (run_inv ops _ _ inv_start) as (a & H). fold s in H. split.
  - revert a H Al. generalize s as s0. clear. induction ops' as [|op ops IH]; intros s a H Al; auto. cbn [CtxModel.run].
    assert (E : trace (fst (step s op)) = trace s /\ alive (fst (step s op)) = false).
    { assert (G : forall o s1 r, context lingers succeeds s o = (s1, r) -> s1 = s /\ exists e, r = Err e) by (intros; eapply get_dead; eauto).
      destruct op as [path|o path|o path|o|o i| |]; cbn [CtxModel.step]; rewrite ?Al; try (cbn; auto; fail).
      - destruct (kind_of s o) as [[]|]; try (cbn; auto; fail); destruct (context lingers succeeds s o) as [s1 r] eqn:Cx; destruct (G o s1 r Cx) as (-> & e & ->); cbn; auto.
      - destruct (kind_of s o) as [[]|]; cbn; auto.
      - destruct (kind_of s o) as [[]|]; try (cbn; auto; fail); destruct (context lingers succeeds s o) as [s1 r] eqn:Cx; destruct (G o s1 r Cx) as (-> & e & ->); cbn; auto.
      - destruct (kind_of s o) as [[]|]; cbn; auto. }
    destruct E as [E1 E2]. destruct (step_inv s a op H) as (a1 & I1). rewrite (IH _ a1); auto.
  - cbn [CtxModel.step]. destruct (kind_of s o) as [[]|]; try (cbn; discriminate); unfold context; destruct (get_context (S o) s o) as [s1 r] eqn:Cx;
      destruct (get_dead _ _ _ _ _ _ H Al Cx) as (-> & e & ->); cbn; discriminate.
Qed.
End Main.

Print Assumptions C33_stack_order.
Print Assumptions C33_right_index.
Print Assumptions C33_right_array.
Print Assumptions C33_available.
Print Assumptions C33_closed.

(** In plain terms: every context is opened and ended at most once, and all are ended when the entry has been closed. *)
Definition opens (c : cid) (e : ev) : bool := match e with EvOpen _ d _ => Nat.eqb c d | _ => false end.
Definition ends (c : cid) (e : ev) : bool := match e with EvEnd d => Nat.eqb c d | _ => false end.
Definition count (f : ev -> bool) (t : list ev) : nat := length (filter f t).

Lemma count_snoc : forall f t e, count f (t ++ [e]) = count f t + if f e then 1 else 0.
Proof. intros. unfold count. rewrite filter_app, app_length. simpl. destruct (f e); auto. Qed.
Lemma existsb_In : forall c l, existsb (Nat.eqb c) l = true <-> In c l.
Proof. intros c l. rewrite existsb_exists. split; [intros (x & I & E); apply Nat.eqb_eq in E; subst; auto|intros I; exists c; split; auto; apply Nat.eqb_refl]. Qed.

Lemma counts : forall t a, al_run t = Some a -> NoDup (map fst (a_stack a)) /\ (forall c, In c (map fst (a_stack a)) -> In c (a_used a)) /\
  forall c, count (opens c) t = (if existsb (Nat.eqb c) (a_used a) then 1 else 0) /\
            count (opens c) t = count (ends c) t + if existsb (Nat.eqb c) (map fst (a_stack a)) then 1 else 0.
Proof.
  induction t as [|e t IH] using rev_ind; intros a H.
  - injection H as <-. simpl. split; [constructor|split; [tauto|auto]].
  - rewrite al_app in H. simpl in H. destruct (al_run t) as [b|] eqn:R; [|discriminate]. destruct (IH b eq_refl) as (N & U & C). clear IH.
    unfold al_step in H. destruct (negb (a_open b)); [discriminate|].
    assert (Same : a_used a = a_used b -> map fst (a_stack a) = map fst (a_stack b) -> (forall c, opens c e = false) -> (forall c, ends c e = false) ->
      NoDup (map fst (a_stack a)) /\ (forall c, In c (map fst (a_stack a)) -> In c (a_used a)) /\
      forall c, count (opens c) (t ++ [e]) = (if existsb (Nat.eqb c) (a_used a) then 1 else 0) /\
            count (opens c) (t ++ [e]) = count (ends c) (t ++ [e]) + if existsb (Nat.eqb c) (map fst (a_stack a)) then 1 else 0).
    { intros -> -> E1 E2. sp; auto. intros c. rewrite !count_snoc, E1, E2. specialize (C c). lia. }
    destruct e as [p c path|p path|c k|c k|c k|c| |ok].
    + destruct (Nat.eqb (top b) p && _) eqn:X; [|discriminate]. injection H as <-. clear Same. cbn [a_stack a_used map fst].
      apply andb_true_iff in X as [_ X]. apply negb_true_iff in X. assert (Nu : ~ In c (a_used b)) by (rewrite <- existsb_In; simpl in X; apply orb_false_iff in X as [_ X]; congruence).
      sp.
      * constructor; auto.
      * intros d [<-|I]; [left|right]; auto.
      * intros d. rewrite !count_snoc. specialize (C d). simpl. destruct (Nat.eqb d c) eqn:E; simpl; [|lia]. apply Nat.eqb_eq in E; subst.
        assert (E1 : existsb (Nat.eqb c) (a_used b) = false) by (apply not_true_iff_false; rewrite existsb_In; auto).
        assert (E2 : existsb (Nat.eqb c) (map fst (a_stack b)) = false) by (apply not_true_iff_false; rewrite existsb_In; auto).
        rewrite E1, E2 in C. lia.
    + destruct (Nat.eqb (top b) p); [|discriminate]. injection H as <-. apply Same; auto.
    + destruct (a_stack b) as [|[d [q i]] r] eqn:S; [discriminate|]. destruct (Nat.eqb c d); [|discriminate]. injection H as <-. apply Same; auto.
    + destruct (a_stack b) as [|[d q] r] eqn:S; [discriminate|]. destruct (Nat.eqb c d); [|discriminate]. injection H as <-. rewrite S in *. apply Same; auto.
    + destruct (a_stack b) as [|[d q] r] eqn:S; [discriminate|]. destruct (Nat.eqb c d); [|discriminate]. injection H as <-. rewrite S in *. apply Same; auto.
    + destruct (a_stack b) as [|[d q] r] eqn:S; [discriminate|]. destruct (Nat.eqb c d) eqn:E; [|discriminate]. injection H as <-. clear Same. cbn [a_stack a_used].
      apply Nat.eqb_eq in E; subst d. simpl in N. inversion N as [|? ? N1 N2]; subst. sp; auto.
      * intros x I. apply U. right; auto.
      * intros x. rewrite !count_snoc. specialize (C x). simpl in C |- *. destruct (Nat.eqb x c) eqn:E; simpl in C; [|lia]. apply Nat.eqb_eq in E; subst.
        assert (E2 : existsb (Nat.eqb c) (map fst r) = false) by (apply not_true_iff_false; rewrite existsb_In; auto). rewrite E2. simpl in C. lia.
    + destruct (a_stack b) eqn:S; [|discriminate]. injection H as <-. rewrite S in *. apply Same; auto.
    + destruct (a_stack b) eqn:S; [|discriminate]. injection H as <-. apply Same; auto.
Qed.

Theorem C33_closed_once : forall lingers succeeds ops c, let s := run lingers succeeds start ops in
  count (opens c) (trace s) <= 1 /\ count (ends c) (trace s) <= count (opens c) (trace s) /\
  (alive s = false -> count (ends c) (trace s) = count (opens c) (trace s)).
Proof.
  intros lingers succeeds ops c s. destruct (run_inv lingers succeeds ops _ _ (inv_start lingers succeeds)) as (a & H). fold s in H.
  destruct (counts _ _ (i_run _ _ H)) as (_ & _ & C). specialize (C c). sp.
  - destruct (existsb (Nat.eqb c) (a_used a)); lia.
  - lia.
  - intros Al. rewrite (i_cache _ _ H), (i_dead _ _ H Al) in C. simpl in C. lia.
Qed.
Print Assumptions C33_closed_once.

(** Two arrays of the same IDS, nested, read back and forth; then another IDS; then close. *)
Definition demo : list lop :=
  [LGet (strs "wall"); LArray 1 (strs "d"); LSize 2; LItem 2 0; LItem 2 1; LRead 4 (strs "x"); LRead 3 (strs "x"); LArray 4 (strs "u"); LItem 5 2; LRead 6 (strs "y");
   LRead 3 (strs "x"); LRead 6 (strs "y"); LGet (strs "code"); LRead 8 (strs "z"); LClose; LRead 6 (strs "y")].
Example ex_demo : trace (run (fun _ _ => false) (fun _ => true) start demo) =
  [EvEager; EvOpen 0 1 (strs "wall"); EvOpen 1 2 (strs "d"); EvIter 2 1; EvRead 2 (strs "x"); EvIter 2 (-1); EvRead 2 (strs "x");
   EvIter 2 1; EvOpen 2 3 (strs "u"); EvIter 3 2; EvRead 3 (strs "y"); EvEnd 3; EvIter 2 (-1); EvRead 2 (strs "x");
   EvIter 2 1; EvOpen 2 4 (strs "u"); EvIter 4 2; EvRead 4 (strs "y"); EvEnd 4; EvEnd 2; EvEnd 1; EvEager; EvOpen 0 5 (strs "code"); EvRead 5 (strs "z"); EvEnd 5; EvClose true].
Proof. vm_compute. reflexivity. Qed.
Example ex_located : located (objs (run (fun _ _ => false) (fun _ => true) start demo)) 6 [(strs "wall", 0); (strs "d", 1); (strs "u", 2)]%Z.
Proof.
  apply (loc_item _ 6 {| l_kind := KItem 2; l_parent := Some 5; l_live := true |} 2 5 {| l_kind := KAos (strs "u"); l_parent := Some 4; l_live := true |} (strs "u") 4 [(strs "wall", 0); (strs "d", 1)]%Z); try reflexivity.
  apply (loc_item _ 4 {| l_kind := KItem 1; l_parent := Some 2; l_live := true |} 1 2 {| l_kind := KAos (strs "d"); l_parent := Some 1; l_live := true |} (strs "d") 1 [(strs "wall", 0)]%Z); try reflexivity.
  apply (loc_ids _ 1 {| l_kind := KAction (strs "wall"); l_parent := Some 0; l_live := true |} (strs "wall") 0); try reflexivity.
  apply (loc_root _ 0 {| l_kind := KRoot; l_parent := None; l_live := true |}); reflexivity.
Qed.
