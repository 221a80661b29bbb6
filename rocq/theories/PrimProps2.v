(** C11, continued: arrays and lists of strings.
    - after any operations a data node holds nothing or a value of its type and number of dimensions;
    - assigning a numeric array stores what numpy makes of it, if that has the right number of dimensions, and raises otherwise;
    - what assignment, append, extend and item assignment do to a list of strings. *)
From Verif Require Import Base TreeModel TreeSpec PrimModel PrimSpec PrimProps.

Section Props.
Variable str_of : pyval -> str.
Variable parse_float : str -> option flt.
Variable parse_cpx : str -> option (flt * flt).
Variable flt_of_int : Z -> option flt.
Variable np_cast : dtype -> pyval -> result pexn value.
Variable array_items : value -> list pyval.
Notation means := (means str_of parse_float parse_cpx flt_of_int).
Notation assigned := (assigned str_of parse_float parse_cpx flt_of_int np_cast array_items).
Notation set_value := (set_value str_of parse_float parse_cpx flt_of_int np_cast array_items).
Notation step := (step str_of parse_float parse_cpx flt_of_int np_cast array_items).
Notation run := (run str_of parse_float parse_cpx flt_of_int np_cast array_items).

(** numpy: an array of the type, with as many elements as its shape says *)
Inductive numeric : dtype -> value -> Prop :=
| nu_int : forall sh d, prod sh = length d -> numeric INT (VIntA sh d)
| nu_flt : forall sh d, prod sh = length d -> numeric FLT (VFltA sh d)
| nu_cpx : forall sh d, prod sh = length d -> numeric CPX (VCpxA sh d).
Definition np_typed : Prop := forall dt p v, np_cast dt p = Ok v -> numeric dt v.
(** numeric types have any number of dimensions, strings at most one *)
Definition exists_type (dt : dtype) (nd : nat) : Prop := dt = STR -> nd <= 1.

Lemma numeric_ok : forall dt v nd, numeric dt v -> length (value_shape v) = S nd -> val_ok dt (S nd) v.
Proof.
  intros dt v nd H E. inversion H; subst; simpl in E; rewrite <- E; [apply vo_inta|apply vo_flta|apply vo_cpxa]; auto; intros ->; discriminate.
Qed.
Lemma means_val : forall dt p v, means dt p v -> val_ok dt 0 v.
Proof. intros dt p v M. induction M; auto; constructor. Qed.
Lemma assigned_ok : forall dt nd p v, np_typed -> exists_type dt nd -> wf_py p -> assigned dt nd p = Ok v -> val_ok dt nd v.
Proof.
  intros dt nd p v NT ET WP H. destruct nd as [|nd]; [apply C11_assign_iff in H; auto; eapply means_val; eauto|].
  assert (C : forall q, cast_value str_of parse_float parse_cpx flt_of_int np_cast array_items dt (S nd) q = Ok v -> val_ok dt (S nd) v).
  { intros q E. destruct dt; cbn in E.
    - assert (nd = 0) as -> by (specialize (ET eq_refl); lia). unfold cast_list in E. destruct (items array_items q); [destruct (cast_strs str_of l)|destruct (cast_str str_of q)]; inversion E; constructor.
    - unfold cast_array in E. destruct (np_cast INT q) as [w|] eqn:N; [|discriminate]. destruct (length (value_shape w) =? S nd) eqn:L; [|discriminate]. injection E as ->. apply Nat.eqb_eq in L. apply numeric_ok; eauto.
    - unfold cast_array in E. destruct (np_cast FLT q) as [w|] eqn:N; [|discriminate]. destruct (length (value_shape w) =? S nd) eqn:L; [|discriminate]. injection E as ->. apply Nat.eqb_eq in L. apply numeric_ok; eauto.
    - unfold cast_array in E. destruct (np_cast CPX q) as [w|] eqn:N; [|discriminate]. destruct (length (value_shape w) =? S nd) eqn:L; [|discriminate]. injection E as ->. apply Nat.eqb_eq in L. apply numeric_ok; eauto. }
  unfold PrimModel.assigned in H. destruct p as [| | | | | | | | | |dt' nd' v']; eauto.
  destruct (same_class dt (S nd) dt' nd'); eauto. destruct (dtype_eqb dt dt' && (S nd =? nd')) eqn:E; eauto.
  apply Bool.andb_true_iff in E as (E1 & E2). apply Nat.eqb_eq in E2. subst nd'. injection H as ->.
  assert (dt = dt') as -> by (destruct dt, dt'; try discriminate; auto). apply (proj1 WP). reflexivity.
Qed.
(** Lists of strings have a list interface; other nodes do not. *)
Definition has_op (dt : dtype) (nd : nat) (o : op) : Prop :=
  match o with OAssign p => wf_py p | ORead => True | OAppend _ | OExtend _ | OSetItem _ _ => dt = STR /\ nd = 1 end.
Theorem C11_stored_type : forall dt nd ops v, np_typed -> exists_type dt nd -> (forall o, In o ops -> has_op dt nd o) -> run dt nd ops = Some v -> val_ok dt nd v.
Proof.
  intros dt nd ops v NT ET. revert v. induction ops as [|o ops IH] using rev_ind; intros v HO R; [discriminate|].
  assert (IH' : forall v, run dt nd ops = Some v -> val_ok dt nd v) by (intros; apply IH; auto; intros; apply HO; apply in_or_app; auto).
  unfold PrimModel.run in R, IH'. rewrite fold_left_app in R. cbn [fold_left] in R. set (st := fold_left (step dt nd) ops None) in *.
  assert (G : forall v, fst (get_value dt nd st) = Some v -> val_ok dt nd v).
  { intros w E. destruct st as [x|]; cbn in E; auto. destruct nd as [|k]; [discriminate|]. injection E as <-. destruct dt.
    - assert (k = 0) as -> by (specialize (ET eq_refl); lia). constructor.
    - pose proof (vo_inta (repeat 0 (S k)) []) as X. rewrite repeat_length in X. apply X; [discriminate|reflexivity].
    - pose proof (vo_flta (repeat 0 (S k)) []) as X. rewrite repeat_length in X. apply X; [discriminate|reflexivity].
    - pose proof (vo_cpxa (repeat 0 (S k)) []) as X. rewrite repeat_length in X. apply X; [discriminate|reflexivity]. }
  assert (HOo : has_op dt nd o) by (apply HO; apply in_or_app; simpl; auto).
  assert (G1 : forall v, dt = STR -> nd = 1 -> fst (get_value STR 1 st) = Some v -> val_ok dt nd v) by (intros w -> ->; auto).
  destruct o as [p| |p|p|i p]; cbn [PrimModel.step] in R; cbn in HOo; auto.
  - unfold PrimModel.set_value in R. cbn [fst] in R. destruct (assigned dt nd p) as [w|e] eqn:A; cbn [fst] in R; auto.
    apply assigned_ok in A; auto. destruct ((nd =? 0) && is_empty dt w); [discriminate|]. injection R as ->. auto.
  - destruct HOo as (-> & ->). unfold append in R. destruct (get_value STR 1 st) as [st' w] eqn:GV. cbn [fst] in G. destruct (cast_str str_of p); cbn in R; auto. injection R as <-. constructor.
  - destruct HOo as (-> & ->). unfold extend in R. destruct (get_value STR 1 st) as [st' w] eqn:GV. cbn [fst] in G.
    destruct (match p with PStr s => _ | _ => _ end); cbn in R; auto. destruct (extend_list str_of (list_of w) l); cbn in R. injection R as <-. constructor.
  - destruct HOo as (-> & ->). unfold setitem in R. destruct (cast_str str_of p); [|auto]. destruct (get_value STR 1 st) as [st' w] eqn:GV. cbn [fst] in G. destruct (py_pos i (length (list_of w))); cbn in R; auto. injection R as <-. constructor.
Qed.

(** Numeric arrays: what is assigned is stored iff numpy converts it to an array with the number of dimensions of the node; otherwise an
    exception is raised and nothing changes. *)
Theorem C11_array_assign : forall dt nd st p, dt <> STR -> (forall dt' nd' v, p <> PNode dt' nd' v) ->
  (forall v, np_cast dt p = Ok v -> length (value_shape v) = S nd -> set_value false dt (S nd) st p = (Some v, Ok tt)) /\
  ((forall v, np_cast dt p = Ok v -> length (value_shape v) <> S nd) -> exists e, set_value false dt (S nd) st p = (st, Err e)).
Proof.
  intros dt nd st p NS NP.
  assert (A : assigned dt (S nd) p = cast_array np_cast dt (S nd) p) by (destruct p; try (destruct dt; [congruence|reflexivity..]); edestruct NP; eauto).
  unfold PrimModel.set_value. rewrite A. unfold cast_array. split.
  - intros v E L. rewrite E, L, Nat.eqb_refl. reflexivity.
  - intros H. destruct (np_cast dt p) as [v|e] eqn:E; [|eauto]. destruct (length (value_shape v) =? S nd) eqn:L; [|eauto]. apply Nat.eqb_eq in L. destruct (H v); auto.
Qed.
(** another node of the same type and number of dimensions: its value *)
Theorem C11_array_copy : forall dt nd st v, set_value false dt (S nd) st (PNode dt (S nd) v) = (Some v, Ok tt).
Proof.
  intros dt nd st v. unfold PrimModel.set_value, PrimModel.assigned. replace (same_class dt (S nd) dt (S nd)) with true by (destruct dt; reflexivity).
  replace (dtype_eqb dt dt) with true by (destruct dt; reflexivity). rewrite Nat.eqb_refl. reflexivity.
Qed.
(** Reading an array that is not set stores the empty array, which can then be changed in place; reading it again gives the same. *)
Theorem C11_read_array : forall dt nd st, let (st', v) := get_value dt (S nd) st in st' = Some v /\ get_value dt (S nd) st' = (st', v) /\ (st = None -> value_len v = 0) /\ (forall w, st = Some w -> v = w).
Proof.
  intros dt nd [w|]; cbn.
  - repeat split; auto; [discriminate|congruence].
  - repeat split; auto; [|discriminate]. destruct dt; auto.
Qed.

(** ** Lists of strings *)
(** what iterating over p gives; strings and bytes count as one item when assigned, and as their characters for extend *)
Inductive iterates : pyval -> list pyval -> Prop :=
| it_list : forall l, iterates (PList l) l
| it_arr : forall v, iterates (PArr v) (array_items v)
| it_str_node : forall dt nd s, iterates (PNode dt nd (VStr s)) (map (fun c => PStr [c]) s)
| it_strs_node : forall dt nd l, iterates (PNode dt nd (VStrs l)) (map PStr l)
| it_int_node : forall dt nd sh d, iterates (PNode dt nd (VIntA sh d)) (array_items (VIntA sh d))
| it_flt_node : forall dt nd sh d, iterates (PNode dt nd (VFltA sh d)) (array_items (VFltA sh d))
| it_cpx_node : forall dt nd sh d, iterates (PNode dt nd (VCpxA sh d)) (array_items (VCpxA sh d)).
Definition is (p : pyval) (s : str) : Prop := means STR p (VStr s).
(** for extend *)
Definition iter2 (p : pyval) (ps : list pyval) : Prop := iterates p ps \/ (exists t, p = PStr t /\ ps = map (fun c => PStr [c]) t).
Definition no_text (p : pyval) : Prop := forall s, ~ is p s.
(** the list before and after an operation *)
Inductive edit : list str -> op -> list str -> Prop :=
| ed_read : forall l, edit l ORead l
| ed_append : forall l p s, is p s -> edit l (OAppend p) (l ++ [s])
| ed_append_err : forall l p, no_text p -> edit l (OAppend p) l
| ed_extend : forall l p ps ss, iter2 p ps -> Forall2 is ps ss -> edit l (OExtend p) (l ++ ss)
| ed_extend_err : forall l p ps q qs ss, iterates p (ps ++ q :: qs) -> Forall2 is ps ss -> no_text q -> edit l (OExtend p) (l ++ ss)
| ed_extend_none : forall l p, (forall ps, ~ iterates p ps) -> (forall t, p <> PStr t) -> edit l (OExtend p) l
| ed_item : forall a x b i p s, is p s -> (i = Z.of_nat (length a) \/ i = (- Z.of_nat (length b) - 1)%Z) -> edit (a ++ x :: b) (OSetItem i p) (a ++ s :: b)
| ed_item_range : forall l i p, (i < - Z.of_nat (length l) \/ Z.of_nat (length l) <= i)%Z -> edit l (OSetItem i p) l
| ed_item_err : forall l i p, no_text p -> edit l (OSetItem i p) l
| ed_assign : forall l p ps ss, iterates p ps -> Forall2 is ps ss -> edit l (OAssign p) ss
| ed_assign_one : forall l p s, (forall ps, ~ iterates p ps) -> is p s -> edit l (OAssign p) [s]
| ed_assign_err : forall l p ps, iterates p ps -> (exists q, In q ps /\ no_text q) -> edit l (OAssign p) l
| ed_assign_one_err : forall l p, (forall ps, ~ iterates p ps) -> no_text p -> edit l (OAssign p) l.
Definition contents (st : option value) : list str := match st with Some (VStrs l) => l | _ => [] end.

Lemma cast_is : forall p, match cast_str str_of p with Ok s => is p s | Err _ => no_text p end.
Proof.
  intros p. destruct (cast_str str_of p) as [s|e] eqn:E; [apply str_ok_; auto|]. intros s H. apply str_ok_ in H. congruence.
Qed.
Lemma items_iff : forall p ps, items array_items p = Some ps <-> iterates p ps.
Proof.
  intros p ps. split.
  - destruct p as [| | | | | | | | | |dt nd v]; try discriminate; [intros [= ->]; constructor|intros [= <-]; constructor|]. destruct v; try discriminate; intros [= <-]; constructor.
  - intros H. destruct H; reflexivity.
Qed.
Lemma items_none : forall p, items array_items p = None -> forall ps, ~ iterates p ps.
Proof. intros p H ps X. apply items_iff in X. congruence. Qed.
Lemma cast_all : forall ps, match cast_strs str_of ps with Ok ss => Forall2 is ps ss | Err _ => exists q, In q ps /\ no_text q end.
Proof.
  induction ps as [|p ps IH]; simpl; [constructor|]. pose proof (cast_is p) as C. destruct (cast_str str_of p); [|eauto].
  destruct (cast_strs str_of ps); [constructor; auto|]. destruct IH as (q & I & N). eauto.
Qed.
Lemma extend_spec : forall ps acc, exists a b ss, ps = a ++ b /\ Forall2 is a ss /\ fst (extend_list str_of acc ps) = acc ++ ss /\ match b with [] => True | q :: _ => no_text q end.
Proof.
  induction ps as [|p ps IH]; intros acc.
  - exists [], [], []. simpl. rewrite app_nil_r. auto.
  - simpl. pose proof (cast_is p) as C. destruct (cast_str str_of p) as [s|e].
    + destruct (IH (acc ++ [s])) as (a & b & ss & -> & F & E & B). exists (p :: a), b, (s :: ss). split; auto. split; [constructor; auto|]. split; auto. rewrite E, <- app_assoc. reflexivity.
    + exists [], (p :: ps), []. simpl. rewrite app_nil_r. auto.
Qed.
Lemma py_pos_spec : forall A (l : list A) i, match py_pos i (length l) with
  | Some j => exists a x b, l = a ++ x :: b /\ j = length a /\ (i = Z.of_nat (length a) \/ i = (- Z.of_nat (length b) - 1)%Z)
  | None => (i < - Z.of_nat (length l) \/ Z.of_nat (length l) <= i)%Z end.
Proof.
  intros A l i. unfold py_pos. assert (S : forall j, j < length l -> exists a x b, l = a ++ x :: b /\ j = length a).
  { intros j J. destruct (nth_error l j) as [x|] eqn:E; [|apply nth_error_None in E; lia]. apply nth_error_split in E as (a & b & -> & <-). eauto 6. }
  destruct (Z.leb_spec 0 i), (Z.ltb_spec i (Z.of_nat (length l))); cbn [andb].
  - destruct (S (Z.to_nat i)) as (a & x & b & -> & E); [lia|]. exists a, x, b. split; auto. split; auto. left. lia.
  - destruct (Z.leb_spec (- Z.of_nat (length l)) i), (Z.ltb_spec i 0); cbn [andb]; lia.
  - destruct (Z.leb_spec (- Z.of_nat (length l)) i), (Z.ltb_spec i 0); cbn [andb]; try lia.
    destruct (S (Z.to_nat (i + Z.of_nat (length l)))) as (a & x & b & -> & E); [lia|]. exists a, x, b. split; auto. split; auto. right. rewrite app_length in *. simpl in *. lia.
  - destruct (Z.leb_spec (- Z.of_nat (length l)) i), (Z.ltb_spec i 0); cbn [andb]; lia.
Qed.
Lemma list_set_at : forall A (a : list A) x b s, list_set (length a) s (a ++ x :: b) = a ++ s :: b.
Proof. induction a; simpl; intros; auto. rewrite IHa. auto. Qed.

(** Each operation changes the list as described by [edit]. *)
Theorem C11_list_step : forall st o, (forall v, st = Some v -> val_ok STR 1 v) -> has_op STR 1 o -> edit (contents st) o (contents (step STR 1 st o)).
Proof.
  intros st o VO HO.
  assert (S : st = None \/ exists l, st = Some (VStrs l)) by (destruct st as [v|]; auto; right; specialize (VO v eq_refl); inversion VO; subst; eauto).
  assert (G : exists st', get_value STR 1 st = (st', VStrs (contents st)) /\ contents st' = contents st) by (destruct S as [->|(l & ->)]; cbn; eexists; split; reflexivity).
  destruct G as (st' & G & G'). destruct o as [p| |p|p|i p]; cbn [PrimModel.step].
  - cbn in HO. unfold PrimModel.set_value. cbn [fst].
    assert (A : assigned STR 1 p = cast_list str_of array_items p \/ exists l, p = PNode STR 1 (VStrs l) /\ assigned STR 1 p = Ok (VStrs l)).
    { destruct p as [| | | | | | | | | |dt nd v]; auto. unfold PrimModel.assigned. destruct (same_class STR 1 dt nd) eqn:SC; auto. destruct nd as [|nd]; [discriminate|]. destruct dt; try discriminate. cbn [dtype_eqb andb].
      pose proof (proj1 HO _ _ _ eq_refl) as V. destruct nd as [|nd]; [|inversion V; subst; destruct sh; discriminate]. inversion V; subst. right. cbn. eauto. }
    destruct A as [A|(l & -> & A)]; rewrite A.
    + unfold cast_list. destruct (items array_items p) as [ps|] eqn:I.
      * pose proof (cast_all ps) as C. apply items_iff in I. destruct (cast_strs str_of ps) as [ss|e]; cbn; [eapply ed_assign; eauto|eapply ed_assign_err; eauto].
      * pose proof (cast_is p) as C. pose proof (items_none p I) as N. destruct (cast_str str_of p); cbn; [apply ed_assign_one; auto|apply ed_assign_one_err; auto].
    + cbn. eapply ed_assign; [constructor|]. clear. induction l; simpl; constructor; auto. apply mn_text. constructor.
  - rewrite G. cbn [fst]. rewrite G'. constructor.
  - unfold append. rewrite G. pose proof (cast_is p) as C. destruct (cast_str str_of p); cbn; [apply ed_append; auto|rewrite G'; apply ed_append_err; auto].
  - unfold extend. rewrite G. cbn [list_of]. destruct (match p with PStr s => Some (map (fun c => PStr [c]) s) | p => items array_items p end) as [ps|] eqn:I.
    + destruct (extend_spec ps (contents st)) as (a & b & ss & -> & F & E & B). destruct (extend_list str_of (contents st) (a ++ b)) as [acc r]. cbn in *. subst acc.
      assert (X : iterates p (a ++ b) \/ exists t, p = PStr t /\ a ++ b = map (fun c => PStr [c]) t).
      { destruct p as [t| | | | | | | | | |]; try (left; apply items_iff; exact I); try discriminate. right. exists t. injection I as <-. auto. }
      destruct b as [|q qs]; [rewrite app_nil_r in X; eapply ed_extend; eauto|]. destruct X as [X|(t & -> & X)]; [eapply ed_extend_err; eauto|]. exfalso.
      assert (IQ : In q (map (fun c => PStr [c]) t)) by (rewrite <- X; apply in_or_app; simpl; auto). apply in_map_iff in IQ as (c & <- & _). apply (B [c]). apply mn_text. constructor.
    + cbn [fst]. rewrite G'. apply ed_extend_none; [apply items_none; destruct p; try exact I; discriminate|intros t ->; discriminate].
  - unfold setitem. pose proof (cast_is p) as C. destruct (cast_str str_of p) as [s|e]; [|apply ed_item_err; auto]. rewrite G. cbn [list_of].
    pose proof (py_pos_spec _ (contents st) i) as P. destruct (py_pos i (length (contents st))) as [j|].
    + destruct P as (a & x & b & E & -> & I). rewrite E. cbn. rewrite list_set_at. apply ed_item; auto.
    + cbn [fst]. rewrite G'. apply ed_item_range. auto.
Qed.
(** and by nothing else: what an operation does is determined *)
Theorem C11_edit_fun : forall l o l1 l2, edit l o l1 -> edit l o l2 -> l1 = l2.
Proof.
  assert (IS : forall p s t, is p s -> is p t -> s = t) by (intros p s t A B; apply str_ok_ in A, B; congruence).
  assert (IT : forall p a b, iterates p a -> iterates p b -> a = b) by (intros p a b A B; apply items_iff in A, B; congruence).
  assert (FA : forall ps s t, Forall2 is ps s -> Forall2 is ps t -> s = t).
  { intros ps s t A. revert t. induction A; intros t' B; inversion B; subst; auto. f_equal; eauto. }
  assert (NO : forall ps ss q, Forall2 is ps ss -> In q ps -> no_text q -> False).
  { intros ps ss q A I N. induction A as [|x y ps ss H A IH]; [destruct I|]. destruct I as [->|I]; auto. apply (N y). auto. }
  assert (PF : forall ps ss q qs ps' ss' q' qs', ps ++ q :: qs = ps' ++ q' :: qs' -> Forall2 is ps ss -> Forall2 is ps' ss' -> no_text q -> no_text q' -> ss = ss').
  { intros ps ss q qs ps' ss' q' qs' E A. revert ps' ss' E. induction A as [|x y ps ss H A IH]; intros ps' ss' E B N N'; destruct B as [|x' y' ps' ss' H' B]; auto; simpl in E; injection E as E1 E2; subst.
    - destruct (N y'); auto.
    - destruct (N' y); auto.
    - f_equal; eauto. }
  assert (TX : forall t q, In q (map (fun c : ascii => PStr [c]) t) -> no_text q -> False).
  { intros t q I N. apply in_map_iff in I as (c & <- & _). apply (N [c]). apply mn_text. constructor. }
  assert (IT2 : forall p a b, iter2 p a -> iter2 p b -> a = b).
  { intros p a b [A|(t & -> & ->)] [B|(t' & E & ->)]; eauto; [subst; inversion A|inversion B|congruence]. }
  assert (AP : forall (a b x y : list str), a ++ x = b ++ y -> length a = length b -> a = b /\ x = y).
  { induction a; intros [|? b] x y E L; try discriminate; auto. simpl in *. injection E as -> E. destruct (IHa b x y E) as (-> & ->); auto. }
  intros l o l1 l2 A B. destruct A; inversion B; subst; auto;
    try (match goal with H : is ?p ?a, H' : is ?p ?b |- _ => rewrite (IS p a b H H'); reflexivity end);
    try (exfalso; match goal with H : no_text ?p, H' : is ?p ?a |- _ => exact (H a H') end).
  - match goal with H : iter2 ?p _, H' : iter2 ?p _ |- _ => pose proof (IT2 _ _ _ H H'); subst end. f_equal. eauto.
  - exfalso. match goal with H : iter2 ?p _, H' : iterates ?p _ |- _ => pose proof (IT2 _ _ _ H (or_introl H')); subst end. match goal with H : Forall2 is (_ ++ ?q :: _) _ |- _ => apply (NO _ _ q H); auto end. apply in_or_app; simpl; auto.
  - exfalso. match goal with H : iter2 ?p _ |- _ => destruct H as [X|(t & X & _)] end; match goal with H : forall _, _ |- _ => solve [eapply H; eauto] end.
  - exfalso. match goal with H : iter2 ?p _, H' : iterates ?p _ |- _ => pose proof (IT2 _ _ _ H (or_introl H')); subst end. match goal with H : Forall2 is (_ ++ ?q :: _) _ |- _ => apply (NO _ _ q H); auto end. apply in_or_app; simpl; auto.
  - f_equal. match goal with H : iterates ?p _, H' : iterates ?p (ps ++ _) |- _ => pose proof (IT _ _ _ H' H) end. eapply PF; eauto.
  - exfalso. match goal with H : forall ps, ~ iterates _ ps |- _ => eapply H; eauto end.
  - exfalso. match goal with H : iter2 ?p _ |- _ => destruct H as [X|(t & X & _)] end; match goal with H : forall _, _ |- _ => solve [eapply H; eauto] end.
  - exfalso. match goal with H : forall ps, ~ iterates _ ps |- _ => eapply H; eauto end.
  - match goal with H : is ?p ?a, H' : is ?p ?b |- _ => rewrite (IS p a b H H') end.
    match goal with E : _ ++ _ :: _ = _ ++ _ :: _ |- _ => pose proof (f_equal (@length _) E) as LL; rewrite !app_length in LL; simpl in LL; apply AP in E as (-> & EE); [injection EE as _ ->; reflexivity|lia] end.
  - exfalso. rewrite app_length in *. simpl in *. lia.
  - exfalso. rewrite app_length in *. simpl in *. lia.
  - match goal with H : iterates ?p _, H' : iterates ?p ps |- _ => pose proof (IT _ _ _ H' H); subst end. eauto.
  - exfalso. match goal with H : forall ps, ~ iterates _ ps |- _ => eapply H; eauto end.
  - exfalso. match goal with H : iterates ?p _, H' : iterates ?p ps |- _ => pose proof (IT _ _ _ H' H); subst end. match goal with H : exists q, _ |- _ => destruct H as (? & ? & ?) end. eauto.
  - exfalso. match goal with H : forall ps, ~ iterates _ ps |- _ => eapply H; eauto end.
  - exfalso. match goal with H : forall ps, ~ iterates _ ps |- _ => eapply H; eauto end.
  - exfalso. match goal with H : forall ps, ~ iterates _ ps |- _ => eapply H; eauto end.
  - exfalso. match goal with H : iterates ?p _, H' : iterates ?p ps |- _ => pose proof (IT _ _ _ H' H); subst end. match goal with H : exists q, _ |- _ => destruct H as (? & ? & ?) end. eauto.
  - exfalso. match goal with H : forall ps, ~ iterates _ ps |- _ => eapply H; eauto end.
  - exfalso. match goal with H : forall ps, ~ iterates _ ps |- _ => eapply H; eauto end.
Qed.
End Props.
Print Assumptions C11_stored_type.
Print Assumptions C11_array_assign.
Print Assumptions C11_array_copy.
Print Assumptions C11_read_array.
Print Assumptions C11_list_step.
Print Assumptions C11_edit_fun.

(** numpy, of lists of integers *)
Definition ex_np (dt : dtype) (p : pyval) : result pexn value :=
  match dt, p with
  | INT, PList [PInt a; PInt b] => Ok (VIntA [2] [a; b])
  | INT, PList [PList [PInt a]; PList [PInt b]] => Ok (VIntA [2; 1] [a; b])
  | _, _ => Err ValueErr
  end.
Example C11_stored_type_example : np_typed ex_np /\ exists_type INT 1 /\ exists_type STR 1 /\
  let r := run no_str (fun _ => None) (fun _ => None) small ex_np (fun _ => []) in
  r INT 1 [OAssign (PList [PInt 4; PInt 5])] = Some (VIntA [2] [4; 5]%Z) /\
  r INT 1 [OAssign (PList [PInt 4; PInt 5]); OAssign (PList [PList [PInt 4]; PList [PInt 5]])] = Some (VIntA [2] [4; 5]%Z) /\
  r INT 1 [ORead] = Some (VIntA [0] []) /\
  r STR 1 [OAppend (PStr (strs "a")); OExtend (PList [PStr (strs "b"); PBytes None; PStr (strs "c")]); OSetItem (-1) (PInt 3); OAppend (PStr (strs "d"))] = Some (VStrs [strs "a"; strs "?"; strs "d"]).
Proof.
  split.
  { intros dt p v. unfold ex_np. destruct dt; try discriminate. destruct p as [| | | | | | |l| | |]; try discriminate.
    destruct l as [|[] [|[] [|]]]; try discriminate; try (intros [= <-]; constructor; reflexivity);
      repeat (match goal with |- context [match ?l with [] => _ | _ :: _ => _ end] => destruct l; try discriminate | |- context [match ?x with PInt _ => _ | _ => _ end] => destruct x; try discriminate end);
      intros [= <-]; constructor; reflexivity. }
  split; [intros H; discriminate|]. split; [intros _; lia|]. vm_compute. auto.
Qed.
