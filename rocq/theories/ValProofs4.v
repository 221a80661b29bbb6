(** Validation against its specification. *)
From Verif Require Import Base PathModel TreeModel TreeSpec TreeProofs TreeProofs2 TreeProofs4 ValModel ValSpec ValProofs ValProofs2 ValProofs3.

Lemma list_str_eqb_eq : forall a b, list_str_eqb a b = true <-> a = b.
Proof.
  induction a as [|x a IH]; intros [|y b]; simpl; split; intros H; try discriminate; auto.
  - apply andb_true_iff in H. destruct H as (A & B). apply str_eqb_eq in A. apply IH in B. congruence.
  - inversion H; subst. rewrite str_eqb_refl. apply IH. reflexivity.
Qed.
Lemma ancestor_spec : forall a p, is_ancestor_of (a, []) p = true <-> exists nm t, fst p = a ++ nm :: t.
Proof.
  intros a p. unfold is_ancestor_of. cbn [fst]. rewrite andb_true_iff, Nat.ltb_lt. split.
  - intros (L & E). apply list_str_eqb_eq in E. rewrite <- (firstn_skipn (length a) (fst p)), E.
    destruct (skipn (length a) (fst p)) as [|x t] eqn:S; [|eauto].
    exfalso. pose proof (f_equal (@length _) S) as K. rewrite skipn_length in K. simpl in K. lia.
  - intros (nm & t & ->). rewrite app_length. simpl. split; [lia|]. apply list_str_eqb_eq.
    rewrite firstn_app, Nat.sub_diag, firstn_all, app_nil_r. reflexivity.
Qed.

Lemma each_fun : forall {A B} (R : A -> result lexn B -> Prop), (forall x r r', R x r -> R x r' -> r = r') ->
  forall l r r', each R l r -> each R l r' -> r = r'.
Proof.
  intros A B R F l r r' H. revert r'. induction H; intros r' K; inversion K; subst; auto;
    try (match goal with X : R ?x (Ok _), Y : R ?x (Err _) |- _ => pose proof (F _ _ _ X Y); discriminate end);
    try (match goal with X : R ?x ?u, Y : R ?x ?v |- _ => pose proof (F _ _ _ X Y) end);
    try (match goal with X : each R ?t ?u |- _ => pose proof (IHeach _ X) end); congruence.
Qed.
Lemma each_length : forall {A B} (R : A -> result lexn B -> Prop) l ys, each R l (Ok ys) -> length ys = length l.
Proof.
  intros A B R l ys H. remember (Ok ys) as r. revert ys Heqr. induction H; intros zs E; inversion E; subst; simpl; auto.
Qed.

Section Run.
Variable m : meta.
Variable at_ : list str -> attrs.
Variable n : node.
Hypothesis Hw : wf_meta m.
Hypothesis Hs : str_ok m.
Hypothesis Hc : conf m n.
Notation run := (run n).
Notation gd := (good m).
Let rb' : forall {E A B} (c : M E A) (f : A -> M E B), gd c -> (forall a, gd (f a)) ->
  run (bind c f) = match run c with Ok a => run (f a) | Err e => Err e end.
Proof. intros. apply (rb m n); auto. Qed.

Lemma resolves_fun : forall l p r r', resolves m n l p r -> resolves m n l p r' -> r = r'.
Proof. intros l p r r' A B. apply run_goto in A, B; auto. congruence. Qed.
Lemma items_fun : forall l r r', items_of m n l r -> items_of m n l r' -> r = r'.
Proof. apply items_of_fun; auto. Qed.

(** ** References *)
Lemma zip_filter : forall (qs : list loc) ks, length ks = length qs ->
  (filter (fun x => 0 <? snd x) (zip qs ks) = [] <-> forall k, In k ks -> k = 0) /\
  (forall q k, filter (fun x => 0 <? snd x) (zip qs ks) = [(q, k)] ->
     exists i, nth_error qs i = Some q /\ forall j k', nth_error ks j = Some k' -> (k' > 0 <-> j = i)) /\
  (forall x y t, filter (fun x => 0 <? snd x) (zip qs ks) = x :: y :: t ->
     exists i j ki kj, nth_error ks i = Some ki /\ nth_error ks j = Some kj /\ i <> j /\ ki > 0 /\ kj > 0).
Proof.
  induction qs as [|q qs IH]; intros [|k ks] L; simpl in L; try discriminate.
  - simpl. split; [|split]; [tauto| |]; intros; discriminate.
  - destruct (IH ks) as (A & B & C); [lia|]. simpl. destruct (Nat.ltb_spec 0 k) as [P|P]; split; [|split| |split].
    + split; [discriminate|]. intros H. specialize (H k (or_introl eq_refl)). lia.
    + intros q' k' E. inversion E; subst. exists 0. split; auto. intros [|j] k0 N; simpl in N.
      * inversion N; subst. split; auto.
      * split; [|discriminate]. intros P0. pose proof (proj1 A H2) as Z. apply nth_error_In in N. specialize (Z _ N). lia.
    + intros x y t E. inversion E; subst. destruct (filter (fun x => 0 <? snd x) (zip qs ks)) as [|[q1 k1] t1] eqn:F; [discriminate|].
      inversion H1; subst. assert (Nz : exists j kj, nth_error ks j = Some kj /\ kj > 0).
      { clear - F. revert ks F. induction qs as [|a qs IHq]; intros [|b ks] F; simpl in F; try discriminate.
        destruct (Nat.ltb_spec 0 b).
        - exists 0, b. auto.
        - destruct (IHq _ F) as (j & kj & N & P). exists (S j), kj. auto. }
      destruct Nz as (j & kj & N & P1). exists 0, (S j), k, kj. repeat split; auto.
    + rewrite A. split; [intros H k0 [<-|I]; auto; lia|auto].
    + intros q' k' E. destruct (B _ _ E) as (i & Ni & U). exists (S i). split; auto. intros [|j] k0 N; simpl in N.
      * inversion N; subst. split; [lia|discriminate].
      * rewrite (U _ _ N). split; [congruence|]. intros [= ->]; auto.
    + intros x y t E. destruct (C _ _ _ E) as (i & j & ki & kj & Ni & Nj & D & Pi & Pj). exists (S i), (S j), ki, kj. repeat split; auto.
Qed.

Lemma one_of_fun : forall l dim c r r', one_of m n l dim c r -> one_of m n l dim c r' -> r = r'.
Proof.
  assert (FR : forall l, forall ps r r', each (resolves m n l) ps r -> each (resolves m n l) ps r' -> r = r')
    by (intros; eapply each_fun; eauto; intros; eapply resolves_fun; eauto).
  assert (FI : forall qs r r', each (items_of m n) qs r -> each (items_of m n) qs r' -> r = r')
    by (intros; eapply each_fun; eauto; intros; eapply items_fun; eauto).
  intros l dim c r r' H H'.
  destruct H as [e E|qs e E I|qs ks i q E I N U|qs ks sh z E I Z C D|qs ks E I Z C|qs ks i j ki kj E I Ni Nj D Pi Pj];
  destruct H' as [e' E'|qs' e' E' I'|qs' ks' i' q' E' I' N' U'|qs' ks' sh' z' E' I' Z' C' D'|qs' ks' E' I' Z' C'|qs' ks' i' j' ki' kj' E' I' Ni' Nj' D' Pi' Pj'];
  pose proof (FR _ _ _ _ E E') as [= ?]; subst; auto; try (pose proof (FI _ _ _ I I') as [= ?]; subst; auto);
  try congruence.
  - assert (i' = i).
    { assert (L : exists k, nth_error ks' i' = Some k).
      { destruct (nth_error ks' i') eqn:K; eauto. apply nth_error_None in K. pose proof (each_length _ _ _ I).
        assert (i' < length qs') by (apply nth_error_Some; congruence). lia. }
      destruct L as (k & K). apply (U _ _ K). apply (U' _ _ K). auto. }
    subst. congruence.
  - exfalso. assert (L : exists k, nth_error ks' i = Some k).
    { destruct (nth_error ks' i) eqn:K; eauto. apply nth_error_None in K. pose proof (each_length _ _ _ I).
      assert (i < length qs') by (apply nth_error_Some; congruence). lia. }
    destruct L as (k & K). assert (k > 0) by (apply (U _ _ K); auto). apply nth_error_In in K. specialize (Z' _ K). lia.
  - exfalso. assert (L : exists k, nth_error ks' i = Some k).
    { destruct (nth_error ks' i) eqn:K; eauto. apply nth_error_None in K. pose proof (each_length _ _ _ I).
      assert (i < length qs') by (apply nth_error_Some; congruence). lia. }
    destruct L as (k & K). assert (k > 0) by (apply (U _ _ K); auto). apply nth_error_In in K. specialize (Z' _ K). lia.
  - apply U in Ni', Nj'. tauto || (exfalso; apply D'; rewrite (proj1 Ni' Pi'), (proj1 Nj' Pj'); auto).
  - exfalso. assert (L : exists k, nth_error ks' i' = Some k).
    { destruct (nth_error ks' i') eqn:K; eauto. apply nth_error_None in K. pose proof (each_length _ _ _ I).
      assert (i' < length qs') by (apply nth_error_Some; congruence). lia. }
    destruct L as (k & K). assert (k > 0) by (apply (U' _ _ K); auto). apply nth_error_In in K. specialize (Z _ K). lia.
  - pose proof (dims_at_fun m n Hw Hc _ _ _ D D'). congruence.
  - apply nth_error_In in Ni'. specialize (Z _ Ni'). lia.
  - exfalso. assert (L : exists k, nth_error ks' i' = Some k).
    { destruct (nth_error ks' i') eqn:K; eauto. apply nth_error_None in K. pose proof (each_length _ _ _ I).
      assert (i' < length qs') by (apply nth_error_Some; congruence). lia. }
    destruct L as (k & K). assert (k > 0) by (apply (U' _ _ K); auto). apply nth_error_In in K. specialize (Z _ K). lia.
  - apply U' in Ni, Nj. exfalso; apply D; rewrite (proj1 Ni Pi), (proj1 Nj Pj); auto.
  - apply nth_error_In in Ni. specialize (Z' _ Ni). lia.
Qed.

Lemma run_choose_reference : forall l dim c r, (exists sh, dims_at m n l sh) ->
  (run (choose_reference m l dim c) = r <-> one_of m n l dim c r).
Proof.
  intros l dim c r (sh & Dl).
  assert (S : one_of m n l dim c (run (choose_reference m l dim c))).
  { unfold choose_reference.
    assert (G3 : forall rs ks, gd (match filter (fun x => 0 <? snd x) (zip rs ks) with
      | [] => match c_size c with Some _ => bind (shape m l) (fun s => ret (CRange (nth dim s 0))) | None => fail ELookup end
      | [(q, _)] => ret (CNode q) | _ => fail ELookup end)).
    { intros rs ks. destruct (filter _ _) as [|[q k] [|? ?]]; [|apply good_ret; auto|apply good_fail; auto].
      destruct (c_size c); [|apply good_fail; auto]. apply good_bind; auto; [apply good_shape; auto|intros; apply good_ret; auto]. }
    rewrite rb'; [|apply good_mapM; auto; intros; apply good_goto; auto|].
    - assert (HR : forall r, run (mapM (goto m l) (c_refs c)) = r <-> each (resolves m n l) (c_refs c) r)
        by (apply (run_each m n); auto; [intros; apply good_goto; auto|intros; apply run_goto; auto]).
      destruct (run (mapM (goto m l) (c_refs c))) as [qs|e]; pose proof (proj1 (HR _) eq_refl) as Er; [|apply oo_err; auto].
      rewrite rb'; [|apply good_mapM; auto; intros; apply good_len_value; auto|auto].
      assert (HI : forall r, run (mapM (len_value m) qs) = r <-> each (items_of m n) qs r)
        by (apply (run_each m n); auto; [intros; apply good_len_value; auto|intros; apply run_len_value; auto]).
      destruct (run (mapM (len_value m) qs)) as [ks|e]; pose proof (proj1 (HI _) eq_refl) as Ei; [|eapply oo_items_err; eauto].
      destruct (zip_filter qs ks (each_length _ _ _ Ei)) as (A & B & C).
      destruct (filter (fun x => 0 <? snd x) (zip qs ks)) as [|[q k] [|y t]] eqn:F.
      + destruct (c_size c) as [z|] eqn:Z; [|eapply oo_none; eauto; apply A; auto].
        rewrite rb'; [|apply good_shape; auto|intros; apply good_ret; auto].
        pose proof (proj2 (shape_ok m n Hw Hc l sh) Dl) as RS. rewrite RS. cbn. eapply oo_index; eauto. apply A; auto.
      + destruct (B _ _ eq_refl) as (i & Ni & U). eapply oo_one; eauto.
      + destruct (C _ _ _ eq_refl) as (i & j & ki & kj & Ni & Nj & D & Pi & Pj). eapply oo_several with (i := i) (j := j) (ki := ki) (kj := kj); eauto.
    - intros rs. apply good_bind; auto. apply good_mapM; auto. intros; apply good_len_value; auto. }
  split; [intros <-; auto|]. intros H. eapply one_of_fun; eauto.
Qed.

(** ** A coordinate given by a path *)
Definition node_branch (cn : loc) : M lexn cres :=
  match a_alts (at_ (loc_names cn)) with [] => ret (CNode cn) | alts => choose_alternative m cn alts end.
Definition path_branch (l : loc) (p : path) : M lexn cres :=
  bind (view m EOther l) (fun i =>
    match i with
    | IAoS k => if is_ancestor_of (loc_names l, []) p then own_data m l p k else bind (goto m l p) node_branch
    | _ => bind (goto m l p) node_branch
    end).
Lemma good_node_branch : forall cn, gd (node_branch cn).
Proof. intros. unfold node_branch. destruct (a_alts _); [apply good_ret|apply good_alternative]; auto. Qed.
Lemma good_goto_node : forall l p, gd (bind (goto m l p) node_branch).
Proof. intros. apply good_bind; auto; [apply good_goto; auto|apply good_node_branch]. Qed.
Lemma good_path_branch : forall l p, gd (path_branch l p).
Proof.
  intros. unfold path_branch. apply good_bind; auto; [apply good_view; auto|]. intros [cs|k|nd v]; try apply good_goto_node.
  apply good_if; [apply good_own_data; auto|apply good_goto_node].
Qed.

Lemma inside_dec : forall l p, inside m n l p \/ ~ inside m n l p.
Proof.
  intros l p. unfold inside. setoid_rewrite (info_elems m n Hw). rewrite <- ancestor_spec.
  destruct (info_at m n l) as [[cs|k|nd v]|]; try (right; intros ((k' & E) & _); discriminate).
  destruct (is_ancestor_of (loc_names l, []) p); [left|right]; [split; eauto|intros (_ & K); discriminate].
Qed.

Lemma run_goto_node : forall l p r, ~ inside m n l p -> (run (bind (goto m l p) node_branch) = r <-> by_path m at_ n l p r).
Proof.
  intros l p r NI. rewrite rb'; [|apply good_goto; auto|apply good_node_branch].
  destruct (run (goto m l p)) as [q|e] eqn:G.
  - assert (Q : forall r', resolves m n l p r' -> r' = Ok q) by (intros r' K; apply run_goto in K; auto; congruence).
    apply run_goto in G; auto. unfold node_branch.
    destruct (a_alts (at_ (loc_names q))) as [|a alts] eqn:A.
    + cbn. split; [intros <-; apply bp_node; auto|]. intros H. inversion H; subst; try contradiction;
        match goal with K : resolves _ _ _ _ _ |- _ => apply Q in K; inversion K; subst; try congruence end.
    + rewrite (run_choose_alternative m n); auto. rewrite <- A. split.
      * intros [(e & S & ->)|[(k & e & S & K & ->)|(k & qs & S & K & C)]].
        -- eapply bp_size_err; eauto. congruence.
        -- eapply bp_alts_err; eauto. congruence.
        -- eapply bp_alts; eauto. congruence.
      * intros H. inversion H; subst; try contradiction;
        match goal with K : resolves _ _ _ _ _ |- _ => apply Q in K; inversion K; subst; try congruence end; eauto 10.
  - assert (Q : forall r', resolves m n l p r' -> r' = Err e) by (intros r' K; apply run_goto in K; auto; congruence).
    apply run_goto in G; auto. split; [intros <-; apply bp_node_err; auto|].
    intros H. inversion H; subst; try contradiction;
        match goal with K : resolves _ _ _ _ _ |- _ => apply Q in K; inversion K; subst; try congruence end.
Qed.
Lemma run_path_branch : forall l p r, info_at m n l <> None -> (run (path_branch l p) = r <-> by_path m at_ n l p r).
Proof.
  intros l p r NI. unfold path_branch. rewrite rb'; [|apply good_view; auto|].
  - rewrite run_view. destruct (info_at m n l) as [[cs|k|nd v]|] eqn:I; try congruence;
      try (apply run_goto_node; intros ((k & K) & _); apply info_elems in K; auto; congruence).
    destruct (is_ancestor_of (loc_names l, []) p) eqn:A.
    + assert (E : elems_at m n l k) by (apply info_elems; auto).
      assert (In_ : inside m n l p) by (split; [eauto|apply ancestor_spec; auto]).
      rewrite (run_own_data m n); auto. split.
      * intros [(vs & K & [(S & ->)|(S & ->)])|(e & K & ->)]; [eapply bp_values|eapply bp_ragged|eapply bp_values_err]; eauto.
      * intros H. inversion H; subst; try contradiction;
          match goal with K : elems_at _ _ _ ?k' |- _ => assert (k' = k) by (eapply (elems_at_fun m n); eauto); subst end; eauto 8.
    + apply run_goto_node. intros (_ & K). apply ancestor_spec in K. congruence.
  - intros [cs|k|nd v]; try apply good_goto_node. apply good_if; [apply good_own_data; auto|apply good_goto_node].
Qed.

(** ** Lookup *)
Lemma mode_run : forall r, run (time_mode m) = r <->
  (exists t, mode m n t /\ r = Ok t) \/ ((forall t, ~ mode m n t) /\ r = Err EOther).
Proof.
  intros r. assert (S : forall r, r = run (time_mode m) -> (exists t, mode m n t /\ r = Ok t) \/ ((forall t, ~ mode m n t) /\ r = Err EOther)).
  { clear r. intros r E. unfold time_mode in E.
    rewrite rb' in E; [|apply good_getattr; auto|intros; apply good_bind; auto; [apply good_getattr; auto|intros; apply good_bind; auto;[apply good_read; auto|intros; apply good_as_int; auto]]].
    assert (Ch : forall l c v, value_at m n (l ++ [Child c]) v -> child_at m n l c).
    { clear. intros l c v (m' & x & dt & nd & V & _). unfold child_at. revert V.
      assert (forall l m n m' n', vnode_at m n (l ++ [Child c]) m' n' -> exists m1 n1 c1, vnode_at m n l m1 n1 /\ mkind m1 = KStruct /\ In c1 (mchildren m1) /\ mname c1 = c).
      { clear. induction l as [|s l IH]; simpl; intros m n m' n' V.
        - inversion V; subst. eexists _, _, _. split; [constructor|]. simpl. eauto.
        - inversion V; subst.
          + match goal with X : vnode_at _ _ (l ++ _) _ _ |- _ => destruct (IH _ _ _ _ X) as (m1 & n1 & c1 & A & B) end. exists m1, n1, c1. split; auto. econstructor; eauto.
          + match goal with X : vnode_at _ _ (l ++ _) _ _ |- _ => destruct (IH _ _ _ _ X) as (m1 & n1 & c1 & A & B) end. exists m1, n1, c1. split; auto. econstructor; eauto. }
      eauto. }
    assert (Chv : forall l c d v, value_at m n (l ++ [Child c; Child d]) v -> child_at m n l c).
    { clear. intros l c d v (m' & x & dt & nd & V & _). unfold child_at. revert V.
      assert (forall l m n m' n', vnode_at m n (l ++ [Child c; Child d]) m' n' -> exists m1 n1 c1, vnode_at m n l m1 n1 /\ mkind m1 = KStruct /\ In c1 (mchildren m1) /\ mname c1 = c).
      { clear. induction l as [|s l IH]; simpl; intros m n m' n' V.
        - inversion V; subst. eexists _, _, _. split; [constructor|]. simpl. eauto.
        - inversion V; subst.
          + match goal with X : vnode_at _ _ (l ++ _) _ _ |- _ => destruct (IH _ _ _ _ X) as (m1 & n1 & c1 & A & B) end. exists m1, n1, c1. split; auto. econstructor; eauto.
          + match goal with X : vnode_at _ _ (l ++ _) _ _ |- _ => destruct (IH _ _ _ _ X) as (m1 & n1 & c1 & A & B) end. exists m1, n1, c1. split; auto. econstructor; eauto. }
      eauto. }
    destruct (proj1 (run_getattr m n Hw Hc [] (strs "ids_properties") _) eq_refl) as [(C1 & E1)|(C1 & E1)]; rewrite E1 in E.
    - rewrite rb' in E; [|apply good_getattr; auto|intros; apply good_bind; auto;[apply good_read; auto|intros; apply good_as_int; auto]].
      destruct (proj1 (run_getattr m n Hw Hc ([] ++ [Child (strs "ids_properties")]) (strs "homogeneous_time") _) eq_refl) as [(C2 & E2)|(C2 & E2)]; rewrite E2 in E.
      + rewrite rb' in E; [|apply good_read; auto|intros; apply good_as_int; auto]. cbn [app] in E.
        destruct (proj1 (run_read_value m n Hw [Child (strs "ids_properties"); Child (strs "homogeneous_time")] _) eq_refl) as [(v & V & E3)|(V & E3)]; rewrite E3 in E.
        * destruct v; cbn in E; subst; [right| |right..]; try (left; eauto; fail); split; auto; intros t K;
            pose proof (value_at_fun m n Hw _ _ _ V K); discriminate.
        * right. split; auto. intros t K. destruct (V _ K).
      + right. split; auto. intros t K. apply C2. eapply (Ch [Child (strs "ids_properties")]). exact K.
    - right. split; auto. intros t K. apply C1. eapply (Chv []). exact K. }
  split; [intros <-; auto|]. intros H. destruct (S _ eq_refl) as [(t & M1 & ->)|(M1 & ->)]; destruct H as [(t' & M2 & ->)|(M2 & ->)]; auto.
  - pose proof (value_at_fun m n Hw _ _ _ M1 M2). congruence.
  - destruct (M2 _ M1).
  - destruct (M1 _ M2).
Qed.
Lemma mode_fun : forall t t', mode m n t -> mode m n t' -> t = t'.
Proof. intros t t' A B. pose proof (value_at_fun m n Hw _ _ _ A B). congruence. Qed.

Definition coord_at (l : loc) (dim : nat) : coord := nth dim (a_coords (at_ (loc_names l))) no_coord.

Lemma by_path_fun : forall l p r r', info_at m n l <> None -> by_path m at_ n l p r -> by_path m at_ n l p r' -> r = r'.
Proof. intros l p r r' I A B. apply run_path_branch in A, B; auto. congruence. Qed.
Lemma coordinate_fun : forall l dim c r r', info_at m n l <> None -> coordinate m at_ n l dim c r -> coordinate m at_ n l dim c r' -> r = r'.
Proof.
  intros l dim c r r' I A B.
  assert (NT : c_refs c = [] -> ~ time_coord c) by (intros E (p & a & J & _); rewrite E in J; destruct J).
  destruct A as [sh R D|r T M1 P|p t r T M0 R P|T N0 N1|p r T R Z P|r T R Z O];
  destruct B as [sh' R' D'|r' T' M1' P'|p' t' r' T' M0' R' P'|T' N0' N1'|p' r' T' R' Z' P'|r' T' R' Z' O'];
  try contradiction; try (exfalso; apply (NT ltac:(assumption)); assumption); try congruence; auto;
  try (eapply by_path_fun; eauto; fail); try (pose proof (mode_fun _ _ M1 M0'); discriminate);
  try (pose proof (mode_fun _ _ M1' M0); discriminate).
  - pose proof (dims_at_fun m n Hw Hc _ _ _ D D'). congruence.
  - rewrite R in R'. inversion R'; subst. eapply by_path_fun; eauto.
  - rewrite R in R'. inversion R'; subst. eapply by_path_fun; eauto.
  - rewrite R, Z in *. destruct Z' as [?|L]; [congruence|simpl in L; lia].
  - rewrite R', Z' in *. destruct Z as [?|L]; [congruence|simpl in L; lia].
  - eapply one_of_fun; eauto.
Qed.

Lemma lookup_unfold : forall l dim, lookup m at_ l dim =
  match c_refs (coord_at l dim) with
  | [] => bind (shape m l) (fun s => ret (CRange (nth dim s 0)))
  | _ => bind (choose_path m (coord_at l dim)) (fun p => match p with Some p => path_branch l p | None => choose_reference m l dim (coord_at l dim) end)
  end.
Proof. intros. reflexivity. Qed.

Theorem run_lookup : forall l dim r, (exists sh, dims_at m n l sh) ->
  (run (lookup m at_ l dim) = r <-> coordinate m at_ n l dim (coord_at l dim) r).
Proof.
  intros l dim r (sh & D). set (c := coord_at l dim).
  assert (I : info_at m n l <> None) by (apply info_dims in D; auto; destruct D as (i & -> & _); discriminate).
  assert (S : coordinate m at_ n l dim c (run (lookup m at_ l dim))).
  { rewrite lookup_unfold. fold c. destruct (c_refs c) as [|p t] eqn:R.
    - rewrite rb'; [|apply good_shape; auto|intros; apply good_ret; auto].
      rewrite (proj2 (shape_ok m n Hw Hc l sh) D). cbn. apply co_index; auto.
    - rewrite rb'; [|apply good_choose_path; auto|intros [q|]; [apply good_path_branch|apply good_reference; auto]].
      unfold choose_path. destruct (is_time c) eqn:T.
      + apply is_time_spec in T. rewrite rb'; [|apply good_time_mode; auto|].
        * destruct (proj1 (mode_run _) eq_refl) as [(z & M & ->)|(M & ->)]; [|apply co_no_mode; auto].
          destruct (Z.eqb_spec z 1) as [->|N1].
          -- cbn. apply co_homogeneous; auto. apply run_path_branch; auto.
          -- destruct (Z.eqb_spec z 0) as [->|N0].
             ++ rewrite R. cbn. eapply co_heterogeneous; eauto. apply run_path_branch; auto.
             ++ cbn. apply co_no_mode; auto; intros K; pose proof (mode_fun _ _ K M); congruence.
        * intros z. apply good_if; [apply good_ret; auto|]. apply good_if; [apply good_ret|apply good_fail]; auto.
      + assert (NT : ~ time_coord c) by (intros K; apply is_time_spec in K; congruence).
        unfold has_alternatives, num_rules. rewrite R. destruct (Nat.ltb_spec 1 (length (p :: t) + match c_size c with Some _ => 1 | None => 0 end)) as [L|L].
        * cbn. apply co_one_of; auto; [congruence| |apply run_choose_reference; eauto].
          rewrite R. destruct (c_size c); [left; discriminate|right; simpl in *; lia].
        * cbn. destruct (c_size c) eqn:Z; [simpl in L; lia|]. destruct t; [|simpl in L; lia].
          eapply co_single; eauto. apply run_path_branch; auto. }
  split; [intros <-; auto|]. intros H. eapply coordinate_fun; eauto.
Qed.
End Run.
