(** C17, continued: coordinates as they are written in the data dictionary ("path OR path OR 1...3") give the references in the same
    order, and the size. *)
From Verif Require Import Base PathModel TreeModel ValModel.
From Verif Require NcEntryModel.

(** alternatives separated by " OR "; they contain no spaces themselves *)
Fixpoint written (alts : list str) : str :=
  match alts with [] => [] | [a] => a | a :: t => a ++ strs " OR " ++ written t end.
Definition no_space (a : str) : Prop := ~ In " "%char a.
Definition prefixed (p s : str) : Prop := exists t, s = p ++ t.
(** "1...3": exactly 3 elements; "1...N": any number *)
Definition size_alt (a : str) (z : Z) : Prop := exists t, a = strs "1..." ++ t /\ NcEntryModel.py_int t = Some z.
(** a path in the IDS; what starts with "IDS:" is a path in another one *)
Definition path_alt (a : str) (p : path) : Prop := ~ prefixed (strs "1...") a /\ ~ prefixed (strs "IDS:") a /\ a <> [] /\ parse a = Ok p.
Inductive references : list str -> list path -> Prop :=
| rf_nil : references [] []
| rf_path : forall a p t ps, path_alt a p -> references t ps -> references (a :: t) (p :: ps)
| rf_other : forall a t ps, (forall p, ~ path_alt a p) -> references t ps -> references (a :: t) ps.

Lemma split_skip : forall sep k cur s, k <= length s -> split_sub sep k cur s = split_sub sep 0 cur (skipn k s).
Proof. intros sep k. induction k as [|k IH]; intros cur [|x s] L; simpl in *; try lia; auto. rewrite IH by lia. reflexivity. Qed.
Lemma split_word : forall a cur rest, no_space a -> split_sub (strs " OR ") 0 cur (a ++ rest) = split_sub (strs " OR ") 0 (cur ++ a) rest.
Proof.
  induction a as [|x a IH]; intros cur rest N; simpl app; [rewrite app_nil_r; auto|].
  assert (x <> " "%char) by (intros ->; apply N; simpl; auto). assert (no_space a) by (intros I; apply N; simpl; auto).
  cbn [split_sub]. replace (str_eqb (strs " OR ") (firstn (length (strs " OR ")) (x :: a ++ rest))) with false.
  - rewrite IH by auto. rewrite <- app_assoc. reflexivity.
  - symmetry. apply str_eqb_neq. intros E. cbn in E. injection E as E _. congruence.
Qed.
Lemma split_written : forall alts cur a, no_space a -> Forall no_space alts -> split_sub (strs " OR ") 0 cur (written (a :: alts)) = (cur ++ a) :: alts.
Proof.
  induction alts as [|b alts IH]; intros cur a N F.
  - cbn [written]. rewrite <- (app_nil_r a) at 1. rewrite split_word by auto. reflexivity.
  - change (written (a :: b :: alts)) with (a ++ strs " OR " ++ written (b :: alts)). rewrite split_word by auto.
    change (strs " OR " ++ written (b :: alts)) with (" "%char :: strs "OR " ++ written (b :: alts)). cbn [split_sub].
    change (str_eqb (strs " OR ") (firstn (length (strs " OR ")) (" "%char :: strs "OR " ++ written (b :: alts)))) with true. cbv iota.
    change (length (strs " OR ") - 1) with 3. rewrite split_skip by (cbn; lia). change (skipn 3 (strs "OR " ++ written (b :: alts))) with (written (b :: alts)).
    inversion F; subst. rewrite IH by auto. reflexivity.
Qed.
Lemma starts_prefixed : forall p s, starts_with p s = true <-> prefixed p s.
Proof.
  intros p s. unfold starts_with. rewrite str_eqb_eq. split.
  - intros E. exists (skipn (length p) s). rewrite E at 1. symmetry. apply firstn_skipn.
  - intros (t & ->). rewrite firstn_app, Nat.sub_diag, firstn_all. simpl. rewrite app_nil_r. auto.
Qed.

Definition size_in (alts : list str) (z : Z) : Prop := exists a s b, alts = a ++ s :: b /\ size_alt s z /\ forall s' z', In s' b -> ~ size_alt s' z'.
Lemma add_spec_path : forall c a p, path_alt a p -> add_spec c a = {| c_size := c_size c; c_refs := c_refs c ++ [p] |} /\ forall z, ~ size_alt a z.
Proof.
  intros c a p (N1 & N2 & N3 & E). split; [|intros z (t & -> & _); apply N1; exists t; auto]. unfold add_spec.
  destruct (starts_with (strs "1...") a) eqn:S1; [apply starts_prefixed in S1; contradiction|]. destruct (starts_with (strs "IDS:") a) eqn:S2; [apply starts_prefixed in S2; contradiction|].
  destruct a; [congruence|]. rewrite E. auto.
Qed.
Lemma add_spec_other : forall c a, (forall p, ~ path_alt a p) ->
  (exists z, size_alt a z /\ add_spec c a = {| c_size := Some z; c_refs := c_refs c |}) \/ ((forall z, ~ size_alt a z) /\ add_spec c a = c).
Proof.
  intros c a NP. unfold add_spec. destruct (starts_with (strs "1...") a) eqn:S1.
  - apply starts_prefixed in S1 as (t & ->). replace (skipn 4 (strs "1..." ++ t)) with t by reflexivity. destruct (str_eqb (strs "1..." ++ t) (strs "1...N")) eqn:E.
    + right. split; auto. apply str_eqb_eq in E. injection E as ->. intros z (u & E & P). injection E as <-. vm_compute in P. discriminate.
    + destruct (NcEntryModel.py_int t) as [z|] eqn:P; [left; exists z; split; auto; exists t; auto|]. right. split; auto. intros z (u & E' & P'). apply app_inv_head in E'. subst. congruence.
  - assert (NS : forall z, ~ size_alt a z) by (intros z (t & -> & _); assert (starts_with (strs "1...") (strs "1..." ++ t) = true) by (apply starts_prefixed; exists t; auto); congruence).
    right. split; auto. destruct (starts_with (strs "IDS:") a) eqn:S2; auto. destruct a as [|x a]; auto. destruct (parse (x :: a)) as [p|] eqn:P; auto. exfalso. apply (NP p).
    split; [intros H; apply starts_prefixed in H; congruence|]. split; [intros H; apply starts_prefixed in H; congruence|]. split; [discriminate|auto].
Qed.
Lemma path_alt_dec : forall a, (exists p, path_alt a p) \/ (forall p, ~ path_alt a p).
Proof.
  intros a. destruct (starts_with (strs "1...") a) eqn:S1; [right; intros p (N & _); apply N; apply starts_prefixed; auto|].
  destruct (starts_with (strs "IDS:") a) eqn:S2; [right; intros p (_ & N & _); apply N; apply starts_prefixed; auto|].
  destruct a as [|x a]; [right; intros p (_ & _ & N & _); auto|]. destruct (parse (x :: a)) as [p|e] eqn:P; [left; exists p|right; intros p (_ & _ & _ & E); congruence].
  split; [intros H; apply starts_prefixed in H; congruence|]. split; [intros H; apply starts_prefixed in H; congruence|]. split; [discriminate|auto].
Qed.

Theorem C17_coordinate_of_spec : forall alts, alts <> [] -> Forall no_space alts ->
  let c := coord_of_spec (written alts) in references alts (c_refs c) /\ forall z, c_size c = Some z <-> size_in alts z.
Proof.
  intros alts NE F. cbv zeta. unfold coord_of_spec.
  assert (E : split_sub (strs " OR ") 0 [] (written alts) = alts) by (destruct alts as [|a t]; [congruence|]; inversion F; subst; rewrite split_written by auto; reflexivity).
  rewrite E. clear E F NE.
  assert (G : forall alts c, (exists ps, references alts ps /\ c_refs (fold_left add_spec alts c) = c_refs c ++ ps) /\
    (forall z, c_size (fold_left add_spec alts c) = Some z <-> size_in alts z \/ (c_size c = Some z /\ forall s z', In s alts -> ~ size_alt s z'))).
  { clear. induction alts as [|a alts IH]; intros c.
    - split; [exists []; split; [constructor|rewrite app_nil_r; auto]|]. intros z. simpl. split; [intros H; right; auto|]. intros [(x & s & y & E & _)|(H & _)]; auto. destruct x; discriminate.
    - cbn [fold_left]. destruct (IH (add_spec c a)) as ((ps & R & E) & S). 
      assert (SI : forall z, size_in (a :: alts) z <-> size_in alts z \/ (size_alt a z /\ forall s z', In s alts -> ~ size_alt s z')).
      { intros z. split.
        - intros (x & s & y & EQ & A & B). destruct x as [|x0 x]; injection EQ as -> ->; [right; auto|left; exists x, s, y; auto].
        - intros [(x & s & y & -> & A & B)|(A & B)]; [exists (a :: x), s, y; auto|exists [], a, alts; auto]. }
      destruct (path_alt_dec a) as [(p & P)|NP].
      + destruct (add_spec_path c a p P) as (AS & NS). split.
        * exists (p :: ps). split; [apply rf_path; auto|]. rewrite E, AS. simpl. rewrite <- app_assoc. reflexivity.
        * intros z. rewrite S, SI, AS. cbn [c_size]. split.
          -- intros [H|(H & N)]; auto. right. split; auto. intros s z' [<-|I]; auto.
          -- intros [[H|(H & _)]|(H & N)]; auto; [destruct (NS z); auto|]. right. split; auto. intros s z' I. apply N. simpl. auto.
      + destruct (add_spec_other c a NP) as [(z0 & A & AS)|(NS & AS)].
        * split; [exists ps; split; [apply rf_other; auto|rewrite E, AS; auto]|]. intros z. rewrite S, SI, AS. cbn [c_size]. split.
          -- intros [H|(H & N)]; auto. injection H as ->. auto.
          -- intros [[H|(H & N)]|(H & N)]; auto; [|exfalso; apply (N a z0); simpl; auto]. right. split; auto. destruct A as (t & E1 & E2), H as (t' & E3 & E4). subst a. apply app_inv_head in E3. subst. congruence.
        * split; [exists ps; split; [apply rf_other; auto|rewrite E, AS; auto]|]. intros z. rewrite S, SI, AS. split.
          -- intros [H|(H & N)]; auto. right. split; auto. intros s z' [<-|I]; auto.
          -- intros [[H|(H & _)]|(H & N)]; auto; [destruct (NS z); auto|]. right. split; auto. intros s z' I. apply N. simpl. auto. }
  destruct (G alts {| c_size := None; c_refs := [] |}) as ((ps & R & E) & S). split; [rewrite E; auto|]. intros z. rewrite S. cbn. split; auto. intros [H|(H & _)]; auto. discriminate.
Qed.
Print Assumptions C17_coordinate_of_spec.
Example C17_coordinate_example : Forall no_space [strs "profiles/time"; strs "1...3"; strs "time"] /\
  coord_of_spec (strs "profiles/time OR 1...3 OR time") =
  {| c_size := Some 3%Z; c_refs := [([strs "profiles"; strs "time"], [INone; INone]); ([strs "time"], [INone])] |}.
Proof. split; [repeat constructor; vm_compute; intuition discriminate|vm_compute; reflexivity]. Qed.
