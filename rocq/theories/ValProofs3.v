(** Lookup of coordinates and validation against their specification. *)
From Verif Require Import Base PathModel TreeModel TreeSpec TreeProofs TreeProofs2 TreeProofs4 ValModel ValSpec ValProofs ValProofs2.

Lemma regular_spec : forall vs, regular vs = true <-> same_shapes vs.
Proof.
  assert (LE : forall a b, list_eqb Nat.eqb a b = true <-> a = b).
  { induction a as [|x a IH]; intros [|y b]; simpl; split; intros H; try discriminate; auto.
    - apply andb_true_iff in H. destruct H as (A & B). apply Nat.eqb_eq in A. apply IH in B. congruence.
    - inversion H; subst. rewrite Nat.eqb_refl. apply IH; auto. }
  intros [|v t]; simpl.
  - split; auto. intros _ v w [].
  - rewrite forallb_forall. setoid_rewrite LE. split.
    + intros H a b [<-|Ia] [<-|Ib]; auto.
      * symmetry; auto.
      * rewrite <- (H a), <- (H b); auto.
    + intros H w I. apply H; [left|right]; auto.
Qed.
Lemma is_time_spec : forall c, is_time c = true <-> time_coord c.
Proof.
  intros c. unfold is_time, time_coord. rewrite existsb_exists. unfold is_time_path. split.
  - intros (p & I & H). destruct (rev (fst p)) as [|x t] eqn:E; [discriminate|]. apply str_eqb_eq in H. subst x.
    exists p, (rev t). split; auto. rewrite <- (rev_involutive (fst p)), E. reflexivity.
  - intros (p & a & I & E). exists p. split; auto. rewrite E, rev_app_distr. reflexivity.
Qed.
Lemma all_equal_spec : forall l, all_equal l = true <-> forall x y, In x l -> In y l -> x = y.
Proof.
  intros [|a l]; simpl.
  - split; auto. intros _ x y [].
  - rewrite forallb_forall. split.
    + intros H x y [<-|I] [<-|J]; auto.
      * apply Nat.eqb_eq. auto.
      * symmetry. apply Nat.eqb_eq. auto.
      * transitivity a; [symmetry|]; apply Nat.eqb_eq; auto.
    + intros H x I. apply Nat.eqb_eq. auto.
Qed.

Section Run.
Variable m : meta.
Variable n : node.
Hypothesis Hw : wf_meta m.
Hypothesis Hs : str_ok m.
Hypothesis Hc : conf m n.
Notation run := (run n).
Notation gd := (good m).
Let rb' : forall {E A B} (c : M E A) (f : A -> M E B), gd c -> (forall a, gd (f a)) ->
  run (bind c f) = match run c with Ok a => run (f a) | Err e => Err e end.
Proof. intros. apply (rb m n); auto. Qed.

Lemma run_each : forall {A B} (f : A -> M lexn B) (R : A -> result lexn B -> Prop) l,
  (forall a, gd (f a)) -> (forall a, In a l -> forall r, run (f a) = r <-> R a r) ->
  forall r, run (mapM f l) = r <-> each R l r.
Proof.
  intros A B f R l G. induction l as [|x t IH]; intros H r.
  - cbn. split; [intros <-; constructor|intros K; inversion K; auto].
  - assert (Hx : forall r, run (f x) = r <-> R x r) by (apply H; left; auto).
    assert (Ht : forall a, In a t -> forall r, run (f a) = r <-> R a r) by (intros; apply H; right; auto).
    specialize (IH Ht). simpl mapM. rewrite rb'; auto; [|intros; apply good_bind; auto; [apply good_mapM; auto|intros; apply good_ret; auto]].
    destruct (run (f x)) as [y|e] eqn:F.
    + rewrite rb'; [|apply good_mapM; auto|intros; apply good_ret; auto].
      pose proof (proj1 (Hx _) eq_refl) as Rx.
      assert (Ux : forall r', R x r' -> r' = Ok y) by (intros r' K; symmetry; apply Hx; auto).
      destruct (run (mapM f t)) as [ys|e] eqn:FM; cbn.
      * pose proof (proj1 (IH _) eq_refl) as Rt. split.
        -- intros <-. constructor; auto.
        -- intros K. inversion K; subst; auto.
           ++ apply Ux in H2. apply IH in H4. congruence.
           ++ apply Ux in H3. discriminate.
           ++ apply IH in H4. discriminate.
      * pose proof (proj1 (IH _) eq_refl) as Rt. split.
        -- intros <-. eapply ea_later; eauto.
        -- intros K. inversion K; subst; auto.
           ++ apply IH in H4. discriminate.
           ++ apply Ux in H3. discriminate.
           ++ apply IH in H4. congruence.
    + pose proof (proj1 (Hx _) eq_refl) as Rx.
      assert (Ux : forall r', R x r' -> r' = Err e) by (intros r' K; symmetry; apply Hx; auto).
      split.
      * intros <-. apply ea_here. auto.
      * intros K. inversion K; subst.
        -- apply Ux in H2. discriminate.
        -- apply Ux in H3. congruence.
        -- apply Ux in H2. discriminate.
Qed.

Lemma run_shape : forall l, run (shape m l) = match info_at m n l with
  | Some i => match shape_of i with Some s => Ok s | None => Err EOther end | None => Err EOther end.
Proof. intros. unfold shape, run, bind, view. cbn. destruct (info_at m n l) as [i|]; auto. destruct (shape_of i); reflexivity. Qed.
Lemma shape_ok : forall l sh, run (shape m l) = Ok sh <-> dims_at m n l sh.
Proof.
  intros l sh. rewrite run_shape, (info_dims m n); auto. split.
  - destruct (info_at m n l) as [i|]; [|discriminate]. destruct (shape_of i) eqn:S; [|discriminate]. intros [= <-]. eauto.
  - intros (i & -> & ->). reflexivity.
Qed.
Lemma shape_err : forall l e, run (shape m l) = Err e <-> (forall sh, ~ dims_at m n l sh) /\ e = EOther.
Proof.
  intros l e. split.
  - intros H. split.
    + intros sh D. apply shape_ok in D. congruence.
    + rewrite run_shape in H. destruct (info_at m n l) as [i|]; [destruct (shape_of i)|]; congruence.
  - intros (H & ->). destruct (run (shape m l)) as [s|e] eqn:E.
    + apply shape_ok in E. destruct (H _ E).
    + f_equal. rewrite run_shape in E. destruct (info_at m n l) as [i|]; [destruct (shape_of i)|]; congruence.
Qed.

Ltac kill := match goal with
  | A : dims_at _ _ ?l (_ :: _), B : forall k sh, ~ dims_at _ _ ?l (k :: sh) |- _ => destruct (B _ _ A)
  | A : value_at _ _ ?l (VStr _), B : forall s, ~ value_at _ _ ?l (VStr s) |- _ => destruct (B _ A)
  | A : value_at _ _ ?l ?x, B : value_at _ _ ?l ?y |- _ => pose proof (value_at_fun m n Hw _ _ _ A B); congruence
  | A : dims_at _ _ ?l ?x, B : dims_at _ _ ?l ?y |- _ => pose proof (dims_at_fun m n Hw Hc _ _ _ A B); congruence
  end.
Lemma size_of_fun : forall l r r', size_of m n l r -> size_of m n l r' -> r = r'.
Proof.
  intros l r r' H H'. inversion H; inversion H'; subst; auto; kill.
Qed.
Lemma run_len : forall l r, run (len m l) = r <-> size_of m n l r.
Proof.
  intros l r. assert (S : size_of m n l (run (len m l))).
  { unfold len, ValProofs2.run, bind, view. cbn. destruct (info_at m n l) as [[cs|k|nd v]|] eqn:I; cbn.
    - apply so_none. intros k sh D. apply info_dims in D; auto. destruct D as (i & D & S). rewrite I in D. inversion D; subst. discriminate.
    - eapply so_ok. apply (info_dims m n); auto. eexists. split; [eauto|]. reflexivity.
    - destruct nd as [|nd]; cbn.
      + apply so_none. intros k sh D. apply info_dims in D; auto. destruct D as (i & D & S). rewrite I in D. inversion D; subst. discriminate.
      + destruct (value_shape v) as [|k sh] eqn:V; cbn.
        * apply so_none. intros k sh D. apply info_dims in D; auto. destruct D as (i & D & S). rewrite I in D. inversion D; subst. simpl in S. congruence.
        * apply so_ok with (sh := sh). apply (info_dims m n); auto. eexists. split; [eauto|]. simpl. congruence.
    - apply so_none. intros k sh D. apply info_dims in D; auto. destruct D as (i & D & S). congruence. }
  split; [intros <-; auto|]. intros H. eapply size_of_fun; eauto.
Qed.
Lemma items_of_fun : forall l r r', items_of m n l r -> items_of m n l r' -> r = r'.
Proof.
  assert (X : forall l s k sh, value_at m n l (VStr s) -> dims_at m n l (k :: sh) -> False).
  { intros l s k sh V D. assert (D' : dims_at m n l []) by (right; exists (VStr s); auto).
    pose proof (dims_at_fun m n Hw Hc _ _ _ D D'). discriminate. }
  intros l r r' H H'. inversion H; inversion H'; subst; auto; try solve [exfalso; eauto]; kill.
Qed.
Lemma run_len_value : forall l r, run (len_value m l) = r <-> items_of m n l r.
Proof.
  intros l r.
  assert (R : run (len_value m l) = match info_at m n l with
     Some i => match value_length i with Some k => Ok k | None => Err EOther end | None => Err EOther end).
  { unfold len_value. rewrite rb'; [|apply good_view; auto|].
    - rewrite run_view. destruct (info_at m n l) as [i|] eqn:I; auto. destruct i as [cs|k|nd v]; [reflexivity|reflexivity|].
      rewrite rb'; [|apply good_read; auto|].
      + unfold ValProofs2.run at 1. rewrite run_read, I. rewrite rb'; [|apply good_view; auto|].
        * rewrite run_view, I. destruct (value_length (ILeaf nd v)); reflexivity.
        * intros i. destruct (value_length i); [apply good_ret|apply good_fail]; auto.
      + intros _. apply good_bind; auto; [apply good_view; auto|]. intros i. destruct (value_length i); [apply good_ret|apply good_fail]; auto.
    - intros i. destruct i.
      + simpl. apply good_fail; auto.
      + simpl. apply good_ret; auto.
      + apply good_bind; auto; [apply good_read; auto|]. intros _. apply good_bind; auto; [apply good_view; auto|].
        intros i. destruct (value_length i); [apply good_ret|apply good_fail]; auto. }
  assert (S : items_of m n l (run (len_value m l))).
  { rewrite R. destruct (info_at m n l) as [[cs|k|nd v]|] eqn:I; cbn.
    - apply io_none.
      + intros k sh D. apply info_dims in D; auto. destruct D as (i & D & S). rewrite I in D. inversion D; subst. discriminate.
      + intros s V. apply info_value in V; auto. destruct V as (? & V). congruence.
    - eapply io_ok. apply (info_dims m n); auto. eexists. split; [eauto|]. reflexivity.
    - destruct nd as [|nd]; cbn.
      + assert (D0 : dims_at m n l []) by (apply (info_dims m n); auto; eexists; split; [eauto|]; reflexivity).
        destruct v; try (apply io_none; [intros k sh D; pose proof (dims_at_fun m n Hw Hc _ _ _ D D0); discriminate|
          intros s0 V; apply info_value in V; auto; destruct V as (? & V); congruence]).
        apply io_str. apply (info_value m n); eauto.
      + destruct (value_shape v) as [|k sh] eqn:V; cbn.
        * exfalso. destruct (leaf_shape m n Hw Hc _ _ _ I) as [E|(d & ->)]; [rewrite V in E|]; discriminate.
        * apply io_ok with (sh := sh). apply (info_dims m n); auto. eexists. split; [eauto|]. simpl. congruence.
    - apply io_none.
      + intros k sh D. apply info_dims in D; auto. destruct D as (i & D & S). congruence.
      + intros s V. apply info_value in V; auto. destruct V as (? & V). congruence. }
  split; [intros <-; auto|]. intros H. eapply items_of_fun; eauto.
Qed.

(** ** Values inside an array of structures *)
Lemma run_value_in : forall p l r, run (bind (goto m l p) (fun q => read m q)) = r <-> value_in m n p l r.
Proof.
  intros p l r. rewrite rb'; [|apply good_goto; auto|intros; apply good_read; auto].
  destruct (run (goto m l p)) as [q|e] eqn:G.
  - assert (Q : forall r', resolves m n l p r' -> r' = Ok q) by (intros r' K; apply run_goto in K; auto; congruence).
    apply run_goto in G; auto. rewrite (run_read_value m n); auto. split.
    + intros [(v & V & ->)|(V & ->)]; [eapply vi_ok|eapply vi_none]; eauto.
    + intros K. inversion K as [? q' v K' V|? q' K' V|? e K']; subst; apply Q in K'; inversion K'; subst; eauto.
  - assert (Q : forall r', resolves m n l p r' -> r' = Err e) by (intros r' K; apply run_goto in K; auto; congruence).
    apply run_goto in G; auto. split.
    + intros <-. apply vi_err; auto.
    + intros K. inversion K as [? q' v K' V|? q' K' V|? e' K']; subst; apply Q in K'; congruence.
Qed.
Lemma run_own_data : forall l p k r, run (own_data m l p k) = r <->
  (exists vs, each (value_in m n p) (map (fun i => l ++ [Elem i]) (seq 0 k)) (Ok vs) /\
      ((same_shapes vs /\ r = Ok (CData vs)) \/ (~ same_shapes vs /\ r = Err EOther))) \/
  (exists e, each (value_in m n p) (map (fun i => l ++ [Elem i]) (seq 0 k)) (Err e) /\ r = Err e).
Proof.
  intros l p k r. unfold own_data.
  set (f := fun i => bind (goto m (l ++ [Elem i]) p) (fun q => read m q)).
  assert (Gf : forall i, gd (f i)) by (intros; apply good_bind; auto; [apply good_goto; auto|intros; apply good_read; auto]).
  rewrite rb'; [|apply good_mapM; auto|intros; apply good_if; [apply good_ret|apply good_fail]; auto].
  assert (H : forall r, run (mapM f (seq 0 k)) = r <-> each (value_in m n p) (map (fun i => l ++ [Elem i]) (seq 0 k)) r).
  { generalize (seq 0 k). intros is r'.
    assert (H1 : forall r, run (mapM f is) = r <-> each (fun i => value_in m n p (l ++ [Elem i])) is r)
      by (apply run_each; auto; intros a _ r0; apply run_value_in).
    rewrite H1. clear. split.
    - intros H. induction H; simpl; [constructor|apply ea_cons|apply ea_here|eapply ea_later]; eauto.
    - revert r'. induction is as [|i is IH]; simpl; intros r' H; inversion H; subst; [constructor|apply ea_cons|apply ea_here|eapply ea_later]; eauto. }
  destruct (run (mapM f (seq 0 k))) as [vs|e] eqn:E.
  - pose proof (proj1 (H _) eq_refl) as Ev.
    assert (U : forall r', each (value_in m n p) (map (fun i => l ++ [Elem i]) (seq 0 k)) r' -> r' = Ok vs)
      by (intros r' K; symmetry; apply H; auto).
    pose proof (regular_spec vs) as RS. destruct (regular vs); cbn.
    + split; [intros <-; left; exists vs; split; auto; left; split; auto; apply RS; auto|].
      intros [(vs' & K & [(_ & ->)|(N & _)])|(e & K & _)].
      * apply U in K. congruence.
      * apply U in K. inversion K; subst. exfalso. apply N, RS; auto.
      * apply U in K. discriminate.
    + split; [intros <-; left; exists vs; split; auto; right; split; auto; intros K; apply RS in K; discriminate|].
      intros [(vs' & K & [(N & _)|(_ & ->)])|(e & K & _)]; auto.
      * apply U in K. inversion K; subst. apply RS in N. discriminate.
      * apply U in K. discriminate.
  - pose proof (proj1 (H _) eq_refl) as Ev.
    assert (U : forall r', each (value_in m n p) (map (fun i => l ++ [Elem i]) (seq 0 k)) r' -> r' = Err e)
      by (intros r' K; symmetry; apply H; auto).
    split; [intros <-; right; eauto|]. intros [(vs' & K & _)|(e' & K & ->)]; apply U in K; congruence.
Qed.

(** ** Alternatives *)
Lemma choose_spec : forall q qs r,
  (match filter (fun x : loc * nat => 0 <? snd x) qs with
   | [] => Ok (CNode q)
   | (q', _) :: _ => if all_equal (map snd (filter (fun x => 0 <? snd x) qs)) then Ok (CNode q') else Err ELookup
   end = r) <-> choose q qs r.
Proof.
  intros q qs.
  assert (FZ : forall qs, filter (fun x : loc * nat => 0 <? snd x) qs = [] <-> forall x, In x qs -> snd x = 0).
  { clear. induction qs as [|[a k] t IH]; simpl; [tauto|]. destruct (Nat.ltb_spec 0 k) as [L|L].
    - split; [discriminate|]. intros H. specialize (H (a, k) (or_introl eq_refl)). simpl in H. lia.
    - rewrite IH. split; [intros H x [<-|I]; auto; simpl; lia|auto]. }
  set (F := fun qs => match filter (fun x : loc * nat => 0 <? snd x) qs with
   | [] => Ok (CNode q)
   | (q', _) :: _ => if all_equal (map snd (filter (fun x => 0 <? snd x) qs)) then Ok (CNode q') else Err ELookup
   end). change (forall r, F qs = r <-> choose q qs r).
  assert (Sound : choose q qs (F qs)).
  { unfold F. destruct (filter (fun x => 0 <? snd x) qs) as [|[q' k] rest] eqn:E.
    - apply ch_none. apply FZ; auto.
    - assert (D : exists a b, qs = a ++ (q', k) :: b /\ (forall x, In x a -> snd x = 0) /\ k > 0 /\ rest = filter (fun x => 0 <? snd x) b).
      { clear -E. induction qs as [|[c j] t IH]; simpl in E; [discriminate|]. destruct (Nat.ltb_spec 0 j) as [L|L].
        - inversion E; subst. exists [], t. simpl. repeat split; auto. intros x [].
        - destruct (IH E) as (a & b & -> & Z & K & R). exists ((c, j) :: a), b. repeat split; auto. intros x [<-|I]; auto. simpl. lia. }
      destruct (all_equal (map snd ((q', k) :: rest))) eqn:AE.
      + destruct D as (a & b & -> & Z & K & ->). apply ch_first; auto. intros x I. destruct (snd x) as [|j] eqn:Ex; auto. right.
        pose proof (proj1 (all_equal_spec _) AE) as AE'. apply AE'; simpl; auto. right. rewrite <- Ex. apply in_map.
        apply filter_In. split; auto. rewrite Ex. reflexivity.
      + assert (X : exists x, In x rest /\ snd x <> k).
        { clear -AE. simpl in AE. induction rest as [|y t IH]; simpl in AE; [discriminate|].
          destruct (Nat.eqb_spec k (snd y)) as [->|Hne]; simpl in AE.
          - destruct (IH AE) as (x & I & N). exists x. split; auto. right; auto.
          - exists y. split; [left|]; auto. }
        destruct X as (x & I & N). destruct D as (a & b & -> & Z & K & ->). apply filter_In in I. destruct I as (I & P).
        apply Nat.ltb_lt in P. apply ch_differ with (x := x) (y := (q', k)); simpl; auto.
        * apply in_or_app. right. right. auto.
        * apply in_or_app. right. left. auto. }
  assert (Fun : forall r r', choose q qs r -> choose q qs r' -> r = r').
  { assert (First : forall a q1 k1 b a' q2 k2 b', a ++ (q1, k1) :: b = a' ++ (q2, k2) :: b' -> (forall x : loc * nat, In x a -> snd x = 0) ->
      (forall x, In x a' -> snd x = 0) -> k1 > 0 -> k2 > 0 -> q1 = q2).
    { clear. induction a as [|x a IH]; intros q1 k1 b [|y a'] q2 k2 b' E Z Z' P P'; simpl in E; inversion E; subst; auto.
      - specialize (Z' _ (or_introl eq_refl)). simpl in Z'. lia.
      - specialize (Z _ (or_introl eq_refl)). simpl in Z. lia.
      - eapply IH; eauto; intros; [apply Z|apply Z']; right; auto. }
    assert (All : forall a q1 k b, (forall x : loc * nat, In x a -> snd x = 0) -> (forall x, In x b -> snd x = 0 \/ snd x = k) ->
      forall x, In x (a ++ (q1, k) :: b) -> snd x > 0 -> snd x = k).
    { intros a q1 k b Z B x I P. apply in_app_iff in I. destruct I as [I|[<-|I]]; auto.
      - specialize (Z _ I). lia.
      - destruct (B _ I); auto. lia. }
    intros r r' H H'. destruct H as [qs Z|a q1 k b Z P B|qs x y Ix Iy Px Py N]; inversion H' as [qs' Z' E1 E2|a' q2 k2 b' Z' P' B' E1 E2|qs' x' y' Ix' Iy' Px' Py' N' E1 E2]; subst; auto.
    - specialize (Z (q2, k2)). rewrite in_app_iff in Z. simpl in Z. assert (k2 = 0) by auto. lia.
    - specialize (Z _ Ix'). lia.
    - specialize (Z' (q1, k)). rewrite in_app_iff in Z'. simpl in Z'. assert (k = 0) by auto. lia.
    - do 2 f_equal. eapply First; [symmetry; eauto|..]; eauto.
    - pose proof (All _ _ _ _ Z B _ Ix' Px'). pose proof (All _ _ _ _ Z B _ Iy' Py'). congruence.
    - specialize (Z' _ Ix). lia.
    - pose proof (All _ _ _ _ Z' B' _ Ix Px). pose proof (All _ _ _ _ Z' B' _ Iy Py). congruence. }
  intros r. split; [intros <-; auto|]. intros H. eapply Fun; eauto.
Qed.

Lemma run_alternative : forall q a r,
  run (bind (goto m q a) (fun q' => bind (len m q') (fun j => ret (q', j)))) = r <-> alternative m n q a r.
Proof.
  intros q a r. rewrite rb'; [|apply good_goto; auto|intros; apply good_bind; auto; [apply good_len; auto|intros; apply good_ret; auto]].
  destruct (run (goto m q a)) as [q'|e] eqn:G.
  - assert (Q : forall r', resolves m n q a r' -> r' = Ok q') by (intros r' K; apply run_goto in K; auto; congruence).
    apply run_goto in G; auto. rewrite rb'; [|apply good_len; auto|intros; apply good_ret; auto].
    destruct (run (len m q')) as [k|e] eqn:L; apply run_len in L; cbn.
    + split; [intros <-; apply al_ok; auto|]. intros K. inversion K as [? q0 k0 K' S|? q0 e0 K' S|? e0 K']; subst; apply Q in K'; inversion K'; subst.
      * pose proof (size_of_fun _ _ _ L S). congruence.
      * pose proof (size_of_fun _ _ _ L S). congruence.
    + split; [intros <-; eapply al_size; eauto|]. intros K. inversion K as [? q0 k0 K' S|? q0 e0 K' S|? e0 K']; subst; apply Q in K'; inversion K'; subst.
      * pose proof (size_of_fun _ _ _ L S). congruence.
      * pose proof (size_of_fun _ _ _ L S). congruence.
  - assert (Q : forall r', resolves m n q a r' -> r' = Err e) by (intros r' K; apply run_goto in K; auto; congruence).
    apply run_goto in G; auto. split; [intros <-; apply al_err; auto|].
    intros K. inversion K as [? q0 k0 K' S|? q0 e0 K' S|? e0 K']; subst; apply Q in K'; congruence.
Qed.

Lemma run_choose_alternative : forall q alts r, run (choose_alternative m q alts) = r <->
  (exists e, size_of m n q (Err e) /\ r = Err e) \/
  (exists k e, size_of m n q (Ok k) /\ each (alternative m n q) alts (Err e) /\ r = Err e) \/
  (exists k qs, size_of m n q (Ok k) /\ each (alternative m n q) alts (Ok qs) /\ choose q ((q, k) :: qs) r).
Proof.
  intros q alts r. unfold choose_alternative.
  set (f := fun a => bind (goto m q a) (fun q' => bind (len m q') (fun j => ret (q', j)))).
  assert (Gf : forall a, gd (f a)).
  { intros. apply good_bind; auto; [apply good_goto; auto|]. intros. apply good_bind; auto; [apply good_len; auto|intros; apply good_ret; auto]. }
  assert (Gk : forall k, gd (bind (mapM f alts) (fun rest =>
    let nz := filter (fun x => 0 <? snd x) ((q, k) :: rest) in
    match nz with [] => ret (CNode q) | (q0, _) :: _ => if all_equal (map snd nz) then ret (CNode q0) else fail ELookup end))).
  { intros k. apply good_bind; auto; [apply good_mapM; auto|]. intros rest. cbv zeta.
    destruct (filter _ _) as [|[q0 j] t]; [apply good_ret; auto|apply good_if; [apply good_ret|apply good_fail]; auto]. }
  rewrite rb'; [|apply good_len; auto|exact Gk].
  destruct (run (len m q)) as [k|e] eqn:L; apply run_len in L.
  - assert (U : forall r', size_of m n q r' -> r' = Ok k) by (intros r' K; eapply size_of_fun; eauto).
    rewrite rb'; [|apply good_mapM; auto|].
    + assert (H : forall r, run (mapM f alts) = r <-> each (alternative m n q) alts r).
      { apply run_each; auto. intros a _ r0. apply run_alternative. }
      destruct (run (mapM f alts)) as [qs|e] eqn:E.
      * assert (U' : forall r', each (alternative m n q) alts r' -> r' = Ok qs) by (intros r' K; symmetry; apply H; auto).
        pose proof (proj1 (H _) eq_refl) as Ev. cbv zeta.
        match goal with |- run ?c = r <-> _ => assert (R : run c = match filter (fun x : loc * nat => 0 <? snd x) ((q, k) :: qs) with
             | [] => Ok (CNode q)
             | (q', _) :: _ => if all_equal (map snd (filter (fun x => 0 <? snd x) ((q, k) :: qs))) then Ok (CNode q') else Err ELookup
             end) end.
        { destruct (filter _ _) as [|[q0 j] t]; auto. destruct (all_equal _); reflexivity. }
        rewrite R, choose_spec. clear R. split; [intros C; right; right; eauto|].
        intros [(e & S & _)|[(k' & e & _ & K & _)|(k' & qs' & S & K & C)]].
        -- apply U in S. discriminate.
        -- apply U' in K. discriminate.
        -- apply U in S. apply U' in K. inversion S; inversion K; subst. auto.
      * assert (U' : forall r', each (alternative m n q) alts r' -> r' = Err e) by (intros r' K; symmetry; apply H; auto).
        pose proof (proj1 (H _) eq_refl) as Ev. split; [intros <-; right; left; eauto|].
        intros [(e' & S & _)|[(k' & e' & _ & K & ->)|(k' & qs' & S & K & C)]].
        -- apply U in S. discriminate.
        -- apply U' in K. congruence.
        -- apply U' in K. discriminate.
    + intros rest. cbv zeta. destruct (filter _ _) as [|[q0 j] t]; [apply good_ret; auto|apply good_if; [apply good_ret|apply good_fail]; auto].
  - assert (U : forall r', size_of m n q r' -> r' = Err e) by (intros r' K; eapply size_of_fun; eauto).
    split; [intros <-; left; eauto|].
    intros [(e' & S & ->)|[(k' & e' & S & K & ->)|(k' & qs' & S & K & C)]]; apply U in S; congruence.
Qed.
End Run.
