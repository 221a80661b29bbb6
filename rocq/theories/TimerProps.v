(** C68: the table of timings. *)
From Verif Require Import Base LookupModel LookupProps TimerModel.
Open Scope Z_scope.

Definition zsum (l : list Z) : Z := fold_right Z.add 0 l.
(** The blocks that ended without exception *)
Fixpoint ended (l : list ((str * str) * option Z)) : list ((str * str) * Z) :=
  match l with [] => [] | (k, Some d) :: l => (k, d) :: ended l | (_, None) :: l => ended l end.
(** The last time measured for a cell *)
Definition latest (l : list ((str * str) * Z)) (k : str * str) (d : Z) : Prop := exists a b, l = a ++ (k, d) :: b /\ ~ In k (map fst b).

Lemma pair_eqb_eq : forall a b, pair_eqb a b = true <-> a = b.
Proof.
  intros [a b] [c d]. unfold pair_eqb. cbn [fst snd]. rewrite andb_true_iff, !str_eqb_eq. split; [intros [-> ->]; auto|intros E; injection E; auto].
Qed.
Lemma pair_dec : forall a b : str * str, {a = b} + {a <> b}.
Proof. intros a b. destruct (pair_eqb a b) eqn:E; [left; now apply pair_eqb_eq|right; intros H; apply pair_eqb_eq in H; congruence]. Qed.
Lemma plookup_pset : forall l k k' v, plookup k (pset k' v l) = if pair_eqb k k' then Some v else plookup k l.
Proof.
  induction l as [|[a x] l IH]; intros k k' v; cbn [pset plookup]; [reflexivity|]. destruct (pair_eqb k' a) eqn:Q.
  - apply pair_eqb_eq in Q. subst a. cbn [plookup]. destruct (pair_eqb k k'); reflexivity.
  - cbn [plookup]. rewrite IH. destruct (pair_eqb k a) eqn:Q2; auto. apply pair_eqb_eq in Q2. subst a. destruct (pair_eqb k k') eqn:Q3; auto.
    apply pair_eqb_eq in Q3. subst k'. rewrite (proj2 (pair_eqb_eq k k) eq_refl) in Q. discriminate.
Qed.
Lemma pset_keys : forall l k v x, In x (map fst (pset k v l)) <-> x = k \/ In x (map fst l).
Proof.
  induction l as [|[a y] l IH]; intros k v x; cbn [pset map fst]; [cbn; intuition|]. destruct (pair_eqb k a) eqn:Q.
  - apply pair_eqb_eq in Q. subst. cbn [map fst In]. intuition.
  - cbn [map fst In]. rewrite IH. intuition.
Qed.
Lemma pset_nodup : forall l k v, NoDup (map fst l) -> NoDup (map fst (pset k v l)).
Proof.
  induction l as [|[a y] l IH]; intros k v N; cbn [pset map fst]; [repeat constructor; intros []|]. inversion N as [|? ? N1 N2]; subst. destruct (pair_eqb k a) eqn:Q.
  - cbn [map fst]. exact N.
  - cbn [map fst]. constructor; [|now apply IH]. rewrite pset_keys. intros [->|I]; [|contradiction]. rewrite (proj2 (pair_eqb_eq k k) eq_refl) in Q. discriminate.
Qed.
Lemma plookup_none : forall l k, plookup k l = None <-> ~ In k (map fst l).
Proof.
  induction l as [|[a y] l IH]; intros k; cbn [plookup map fst In]; [intuition|]. destruct (pair_eqb k a) eqn:Q.
  - apply pair_eqb_eq in Q. subst. split; [discriminate|intros H; exfalso; apply H; now left].
  - rewrite IH. split; [intros N [->|I]; [|contradiction]; rewrite (proj2 (pair_eqb_eq k k) eq_refl) in Q; discriminate|tauto].
Qed.
Lemma latest_snoc : forall l k k' d d', latest (l ++ [(k', d')]) k d <-> if pair_eqb k k' then d = d' else latest l k d.
Proof.
  intros l k k' d d'. unfold latest. destruct (pair_eqb k k') eqn:Q.
  - apply pair_eqb_eq in Q. subst k'. split.
    + intros (a & b & E & N). destruct b as [|z b] using rev_ind; [apply app_inj_tail in E as [_ E]; injection E as ->; auto|]. clear IHb.
      rewrite app_comm_cons, app_assoc in E. apply app_inj_tail in E as [_ E]. subst z. exfalso. apply N. rewrite map_app. apply in_or_app. right. now left.
    + intros ->. exists l, []. split; [reflexivity|intros []].
  - assert (Nk : k <> k') by (intros E; apply pair_eqb_eq in E; congruence). split.
    + intros (a & b & E & N). destruct b as [|z b] using rev_ind; [apply app_inj_tail in E as [_ E]; injection E; congruence|]. clear IHb.
      rewrite app_comm_cons, app_assoc in E. apply app_inj_tail in E as [E _]. exists a, b. split; auto. intros I. apply N. rewrite map_app. apply in_or_app. now left.
    + intros (a & b & -> & N). exists a, (b ++ [(k', d')]). rewrite <- app_assoc. split; [reflexivity|]. rewrite map_app. intros I.
      apply in_app_or in I as [I|[I|[]]]; [contradiction|]. cbn in I. congruence.
Qed.

Definition of_cols (l : list ((str * str) * Z)) : list (str * unit) := map (fun e => (fst (fst e), tt)) l.
Definition of_rows (l : list ((str * str) * Z)) : list (str * unit) := map (fun e => (snd (fst e), tt)) l.
Lemma ended_app : forall a b, ended (a ++ b) = ended a ++ ended b.
Proof. induction a as [|[k [d|]] a IH]; intros b; cbn [app ended]; rewrite ?IH; auto. Qed.
Lemma run_spec : forall l, cols (run l) = elements unit (of_cols (ended l)) /\ rows (run l) = elements unit (of_rows (ended l)) /\
  NoDup (map fst (data (run l))) /\ (forall k d, plookup k (data (run l)) = Some d <-> latest (ended l) k d) /\
  (forall k, In k (map fst (data (run l))) <-> In k (map fst (ended l))).
Proof.
  induction l as [|[[c r] [d|]] l IH] using rev_ind.
  - cbn. repeat split; auto; try constructor; try discriminate; try tauto. intros (a & b & E & _). destruct a; discriminate.
  - destruct IH as (C & R & N & L & K). unfold run in *. rewrite fold_left_app. cbn [fold_left block cols rows data]. rewrite ended_app. cbn [ended].
    unfold of_cols, of_rows in *. rewrite !map_app. cbn [map fst snd]. rewrite !elements_snoc, C, R. cbn [fst snd]. repeat split; auto.
    + now apply pset_nodup.
    + rewrite plookup_pset, latest_snoc. destruct (pair_eqb k (c, r)); [intros E; injection E; auto|apply L].
    + rewrite plookup_pset, latest_snoc. destruct (pair_eqb k (c, r)); [intros ->; auto|apply L].
    + rewrite pset_keys, in_app_iff, K. cbn. intuition.
    + rewrite pset_keys, in_app_iff, K. cbn. intuition.
  - unfold run in *. rewrite fold_left_app. cbn [fold_left block]. rewrite ended_app. cbn [ended]. now rewrite app_nil_r.
Qed.

Definition colsum (c : str) (l : list ((str * str) * Z)) : Z := zsum (map snd (filter (fun e => str_eqb c (fst (fst e))) l)).
Lemma totals_fold : forall l tot, (forall e, In e l -> In (fst (fst e)) (akeys tot)) ->
  exists tot', fold_left (fun acc e => match acc with
                          | None => None
                          | Some tot => match alookup (fst (fst e)) tot with
                                        | Some x => Some (aset (fst (fst e)) (x + snd e) tot)
                                        | None => None
                                        end
                          end) l (Some tot) = Some tot' /\
    forall c x, alookup c tot = Some x -> alookup c tot' = Some (x + colsum c l).
Proof.
  induction l as [|e l IH]; intros tot H.
  - exists tot. split; auto. intros c x ->. unfold colsum. cbn. f_equal. lia.
  - cbn [fold_left]. destruct (alookup (fst (fst e)) tot) as [x|] eqn:A; [|apply alookup_None_keys in A; exfalso; apply A, H; now left].
    destruct (IH (aset (fst (fst e)) (x + snd e) tot)) as (tot' & E & L).
    { intros e' I. destruct (alookup (fst (fst e')) (aset (fst (fst e)) (x + snd e) tot)) eqn:A2; [|].
      - apply alookup_In in A2. apply (in_map fst) in A2. exact A2.
      - exfalso. rewrite alookup_aset in A2. destruct (str_eqb _ _); [discriminate|]. apply alookup_None_keys in A2. apply A2, H. now right. }
    exists tot'. split; [exact E|]. intros c y Ay. unfold colsum. cbn [filter]. destruct (str_eqb c (fst (fst e))) eqn:Q.
    + pose proof Q as Q'. apply str_eqb_eq in Q'. subst c. rewrite A in Ay. injection Ay as <-. cbn [map zsum fold_right].
      erewrite L; [|rewrite alookup_aset, str_eqb_refl; reflexivity]. f_equal. unfold colsum, zsum. lia.
    + apply L. rewrite alookup_aset, Q. exact Ay.
Qed.
Lemma zsum_one : forall (f g : str -> Z) r d rs, NoDup rs -> In r rs -> (forall x, x <> r -> g x = f x) -> g r = d + f r -> zsum (map g rs) = d + zsum (map f rs).
Proof.
  intros f g r d. induction rs as [|a rs IH]; intros N I H G; [destruct I|]. inversion N as [|? ? N1 N2]; subst. cbn [map]. unfold zsum in *. cbn [fold_right].
  destruct (str_dec a r) as [->|Na].
  - rewrite G. assert (E : map g rs = map f rs) by (apply map_ext_in; intros x Ix; apply H; intros ->; contradiction). rewrite E. lia.
  - rewrite (H a Na). destruct I as [->|I]; [congruence|]. rewrite IH; auto. lia.
Qed.
Lemma colsum_rows : forall l c rs, NoDup (map fst l) -> NoDup rs -> (forall e, In e l -> In (snd (fst e)) rs) ->
  colsum c l = zsum (map (fun r => match plookup (c, r) l with Some d => d | None => 0 end) rs).
Proof.
  induction l as [|[[c' r'] d] l IH]; intros c rs N Nr H.
  - unfold colsum. cbn. clear. induction rs as [|a rs IH]; cbn; auto.
  - inversion N as [|? ? N1 N2]; subst. specialize (IH c rs N2 Nr (fun e I => H e (or_intror I))). unfold colsum in *. cbn [filter fst]. destruct (str_eqb c c') eqn:Q.
    + apply str_eqb_eq in Q. subst c'. cbn [map snd]. change (zsum (d :: map snd (filter (fun e => str_eqb c (fst (fst e))) l))) with (d + zsum (map snd (filter (fun e => str_eqb c (fst (fst e))) l))).
      rewrite IH. symmetry. apply zsum_one with r'; auto.
      * apply (H ((c, r'), d)). now left.
      * intros x Nx. cbn [plookup]. destruct (pair_eqb (c, x) (c, r')) eqn:E; auto. apply pair_eqb_eq in E. congruence.
      * cbn [plookup]. rewrite (proj2 (pair_eqb_eq (c, r') (c, r')) eq_refl). cbn [fst] in N1. apply plookup_none in N1. rewrite N1. lia.
    + rewrite IH. f_equal. apply map_ext. intros r. cbn [plookup]. destruct (pair_eqb (c, r) (c', r')) eqn:E; auto. apply pair_eqb_eq in E. injection E as -> _. now rewrite str_eqb_refl in Q.
Qed.

(** The columns and rows are those of the blocks that ended without exception, in the order in which they first ended; a cell has the
    time of the last such block with its names ("-" if there is none); the total of a column is the sum of the times shown in it. *)
Theorem C68_table : forall l, exists cs, columns (run l) = Some cs /\
  map fst cs = firsts [] (map (fun e => fst (fst e)) (ended l)) /\
  map fst (body (run l)) = firsts [] (map (fun e => snd (fst e)) (ended l)) /\
  (forall r cells, In (r, cells) (body (run l)) -> length cells = length cs /\
     forall i c tot cell, nth_error cs i = Some (c, tot) -> nth_error cells i = Some cell ->
       forall d, cell = Some d <-> latest (ended l) (c, r) d) /\
  (forall i c tot, nth_error cs i = Some (c, tot) ->
     tot = Some (zsum (map (fun row => match nth i (snd row) None with Some d => d | None => 0 end) (body (run l))))).
Proof.
  intros l. destruct (run_spec l) as (C & R & N & L & K). set (t := run l) in *.
  assert (Kc : map fst (cols t) = firsts [] (map (fun e => fst (fst e)) (ended l))).
  { rewrite C. change (map fst (elements unit (of_cols (ended l)))) with (ids_names unit (of_cols (ended l))). rewrite names_firsts. unfold of_cols. now rewrite map_map. }
  assert (Kr : map fst (rows t) = firsts [] (map (fun e => snd (fst e)) (ended l))).
  { rewrite R. change (map fst (elements unit (of_rows (ended l)))) with (ids_names unit (of_rows (ended l))). rewrite names_firsts. unfold of_rows. now rewrite map_map. }
  assert (Nc : forall e, In e (data t) -> In (fst (fst e)) (map fst (cols t)) /\ In (snd (fst e)) (map fst (rows t))).
  { intros e I. apply (in_map fst) in I. apply K in I. rewrite C, R.
    split; [apply (C66_factory unit [] (of_cols (ended l)))|apply (C66_factory unit [] (of_rows (ended l)))]; unfold of_cols, of_rows; rewrite map_map; cbn [fst];
    apply in_map_iff in I as (e' & Ee & I'); apply in_map_iff; exists e'; rewrite Ee; auto. }
  assert (Nr : NoDup (map fst (rows t))) by (rewrite R; apply (C66_factory unit [] (of_rows (ended l)) [])).
  destruct (totals_fold (data t) (map (fun c => (fst c, 0)) (cols t))) as (tot & E & T).
  { intros e I. unfold akeys. rewrite map_map. cbn [fst]. now apply Nc. }
  unfold columns, totals. rewrite E. cbn [option_map]. eexists. split; [reflexivity|]. split; [rewrite map_map; cbn [fst]; exact Kc|].
  split; [unfold body; rewrite map_map; cbn [fst]; exact Kr|]. split.
  - intros r cells I. unfold body in I. apply in_map_iff in I as ([r0 u] & Er & I). injection Er as <- <-. split; [now rewrite !map_length|].
    intros i c tt0 cell Ei Ec d. rewrite nth_error_map in Ei, Ec. destruct (nth_error (cols t) i) as [[c0 u0]|]; [|discriminate]. cbn in Ei, Ec. injection Ei as <- _. injection Ec as <-. apply L.
  - intros i c tt0 Ei. rewrite nth_error_map in Ei. destruct (nth_error (cols t) i) as [[c0 u0]|] eqn:Ni; [|discriminate]. cbn in Ei. injection Ei as <- <-.
    assert (A : alookup c0 (map (fun c => (fst c, 0)) (cols t)) = Some 0).
    { apply nth_error_In in Ni. clear -Ni. induction (cols t) as [|[a v] cs IH]; [destruct Ni|]. cbn [map fst alookup]. destruct (str_eqb c0 a) eqn:Q; auto.
      destruct Ni as [X|Ni]; [injection X as -> _; now rewrite str_eqb_refl in Q|auto]. }
    rewrite (T c0 0 A). f_equal. rewrite (colsum_rows (data t) c0 (map fst (rows t)) N Nr (fun e I => proj2 (Nc e I))). unfold body. rewrite !map_map. cbn [snd].
    rewrite Z.add_0_l. f_equal. apply map_ext. intros r. rewrite (nth_error_nth _ _ None (map_nth_error (fun c => plookup (fst c, fst r) (data t)) i (cols t) Ni)). reflexivity.
Qed.
Print Assumptions C68_table.
(** An exception in a block leaves no trace of it. *)
Theorem C68_exception : forall a b k, run (a ++ (k, None) :: b) = run (a ++ b).
Proof. intros a b [c r]. unfold run. rewrite !fold_left_app. reflexivity. Qed.
Print Assumptions C68_exception.
Example C68_ex :
  let s := strs in
  let t := run [((s "Get", s "a"), Some 3); ((s "Put", s "a"), Some 5); ((s "Get", s "b"), Some 4); ((s "Convert", s "b"), None); ((s "Get", s "a"), Some 1)]%string in
  columns t = Some [(s "Get", Some 5); (s "Put", Some 5)]%string /\ body t = [(s "a", [Some 1; Some 5]); (s "b", [Some 4; None])]%string.
Proof. vm_compute. split; reflexivity. Qed.
