(** Facts about XML definitions and the construction of metadata. *)
From Verif Require Import Base DataTypeModel PathModel PathSpec ConvSpec ValModel MetaModel MetaSpec.
From Verif Require NcEntryModel.

Section XmlInd.
Variable P : xml -> Prop.
Hypothesis H : forall t a cs, (forall c, In c cs -> P c) -> P (Xml t a cs).
Fixpoint xml_ind' (x : xml) : P x :=
  match x with
  | Xml t a cs => H t a cs ((fix go l : forall c, In c l -> P c :=
      match l with [] => fun c F => match F with end | y :: r => fun c I => match I with or_introl E => eq_ind y P (xml_ind' y) c E | or_intror J => go r c J end end) cs)
  end.
End XmlInd.

Lemma part_trans : forall x y z, part_of x y -> part_of y z -> part_of x z.
Proof. induction 1; auto. intros. econstructor; eauto. Qed.
Lemma elem_part : forall x p y, elem_at x p y -> part_of x y.
Proof. induction 1; econstructor; eauto. Qed.
Lemma elem_app : forall x p y q z, elem_at x p y -> elem_at y q z -> elem_at x (p ++ q) z.
Proof. induction 1; cbn; auto. intros. econstructor; eauto. Qed.
Lemma elem_split : forall p q x z, elem_at x (p ++ q) z -> exists y, elem_at x p y /\ elem_at y q z.
Proof.
  induction p as [|n p IH]; cbn; intros q x z E; [exists x; split; [constructor|assumption]|].
  inversion E as [|? c ? ? ? I N E']; subst. destruct (IH _ _ _ E') as (y & A & B). exists y. split; auto. econstructor; eauto.
Qed.
Lemma nodup_name : forall (l : list xml) c c' n, NoDup (map (attr "name") l) -> In c l -> In c' l -> attr "name" c = Some n -> attr "name" c' = Some n -> c = c'.
Proof.
  induction l as [|y r IH]; intros c c' n N I I' E E'; [destruct I|]. inversion N as [|? ? NI N']; subst.
  destruct I as [->|I], I' as [->|I']; auto.
  - exfalso. apply NI. rewrite E, <- E'. apply in_map. assumption.
  - exfalso. apply NI. rewrite E', <- E. apply in_map. assumption.
  - eapply IH; eauto.
Qed.
Lemma distinct_child : forall x c, distinct_names x -> In c (xchildren x) -> distinct_names c.
Proof. intros x c D I y P. apply D. econstructor; eauto. Qed.
Lemma elem_fun : forall x p y y', distinct_names x -> elem_at x p y -> elem_at x p y' -> y = y'.
Proof.
  intros x p y y' D E. revert D y'. induction E as [x|x c n p y I N E IH]; intros D y' E'; inversion E'; subst; auto.
  assert (c0 = c) by (eapply (nodup_name (xchildren x)); eauto; apply D; constructor). subst. apply IH; auto. eapply distinct_child; eauto.
Qed.

(** the type attribute *)
Lemma upper_not_lower : forall c, is_lower (upper_chr c) = false.
Proof. intros [[] [] [] [] [] [] [] []]; reflexivity. Qed.
Lemma split_upper : forall s p c, In p (split_on "_"%char (upper s)) -> In c p -> is_lower c = false.
Proof.
  intros s p c I J. assert (K : In c (upper s)).
  { rewrite <- (join_split "_"%char (upper s)). revert I. generalize (split_on "_"%char (upper s)). induction l as [|q l IH]; intros I; [destruct I|].
    destruct I as [->|I]; [destruct l; cbn; auto; apply in_or_app; left; auto|].
    destruct l; [destruct I|]. cbn. apply in_or_app. right. right. apply IH. auto. }
  unfold upper in K. apply in_map_iff in K. destruct K as (d & <- & _). apply upper_not_lower.
Qed.
Lemma value_upper : forall s, (forall c, In c s -> is_lower c = false) -> forall t, dtype_of_value s = Ok t -> t <> T_STRUCTURE /\ t <> T_STRUCT_ARRAY.
Proof.
  intros s L t E. unfold dtype_of_value in E.
  destruct (str_eqb s (strs "structure")) eqn:E1; [apply str_eqb_eq in E1; subst; exfalso; specialize (L "s"%char (or_introl eq_refl)); discriminate|].
  destruct (str_eqb s (strs "struct_array")) eqn:E2; [apply str_eqb_eq in E2; subst; exfalso; specialize (L "s"%char (or_introl eq_refl)); discriminate|].
  repeat match type of E with context [if ?b then _ else _] => destruct b end; inversion E; split; discriminate.
Qed.
Lemma parse_structure : forall s t n, dt_parse s = Ok (Some t, n) -> (t = T_STRUCTURE <-> s = Some (strs "structure")) /\ (t = T_STRUCT_ARRAY <-> s = Some (strs "struct_array")).
Proof.
  intros [s|] t n E; [|discriminate]. cbn -[strs upper split_on] in E.
  destruct (str_eqb s (strs "structure")) eqn:E1. { apply str_eqb_eq in E1. subst. vm_compute in E. injection E as <- <-. split; split; intros; try discriminate; auto. }
  destruct (str_eqb s (strs "struct_array")) eqn:E2. { apply str_eqb_eq in E2. subst. vm_compute in E. injection E as <- <-. split; split; intros; try discriminate; auto. }
  assert (X : t <> T_STRUCTURE /\ t <> T_STRUCT_ARRAY).
  { assert (SU := split_upper s). destruct (split_on "_"%char (upper s)) as [|d rest]; [discriminate|].
    assert (V : forall t', dtype_of_value d = Ok t' -> t' <> T_STRUCTURE /\ t' <> T_STRUCT_ARRAY) by (apply value_upper; intros c I; apply (SU d c); [left; reflexivity|assumption]).
    destruct rest as [|r0 rt]; [discriminate|]. destruct (str_eqb r0 (strs "TYPE") && match rt with [] => true | _ => false end).
    - destruct (dtype_of_value d) eqn:E3; [|discriminate]. cbn in E. injection E as <- <-. apply V. reflexivity.
    - destruct r0; [discriminate|]. destruct (is_digit a); [|discriminate]. destruct (dtype_of_value d) eqn:E3; [|discriminate]. cbn in E. injection E as <- <-. apply V. reflexivity. }
  apply str_eqb_neq in E1, E2. destruct X. split; split; intros; congruence.
Qed.
Lemma array_iff : forall y t n, dt_parse (attr "data_type" y) = Ok (t, n) -> (is_array t = true <-> is_array_of_structures y).
Proof.
  intros y [t|] n E.
  - destruct (parse_structure _ _ _ E) as (_ & P). unfold is_array_of_structures. rewrite <- P. destruct t; cbn; split; congruence.
  - unfold is_array_of_structures. split; [discriminate|]. intros A. rewrite A in E. vm_compute in E. discriminate.
Qed.
Lemma type_iff : forall s t, type_of_value s = Some t -> (t = TDynamic <-> s = Some (strs "dynamic")).
Proof.
  intros [s|] t E; cbn -[strs] in E.
  - destruct (str_eqb s (strs "dynamic")) eqn:E1; [apply str_eqb_eq in E1; subst; injection E as <-; tauto|]. apply str_eqb_neq in E1.
    destruct (str_eqb s (strs "constant")); [injection E as <-; split; congruence|]. destruct (str_eqb s (strs "static")); [injection E as <-; split; congruence|discriminate].
  - injection E as <-. split; discriminate.
Qed.
Lemma dyn_iff : forall s t, type_of_value s = Some t -> (is_dynamic t = true <-> s = Some (strs "dynamic")).
Proof. intros s t E. rewrite <- (type_iff s t E). destruct t; cbn; split; congruence. Qed.
Lemma rmap_Forall2 : forall {E A B} (f : A -> result E B) l r, rmap f l = Ok r -> Forall2 (fun a b => f a = Ok b) l r.
Proof.
  intros E A B f. induction l as [|a l IH]; intros r H; cbn in H; [injection H as <-; constructor|].
  destruct (f a) eqn:E1; [|discriminate]. cbn in H. destruct (rmap f l) eqn:E2; [|discriminate]. cbn in H. injection H as <-. constructor; auto.
Qed.
Lemma rpath_ok : forall s p, rpath s = Ok p <-> parse s = Ok p.
Proof. intros s p. unfold rpath. destruct (parse s); split; congruence. Qed.
Lemma nth_seq : forall n a k i, nth_error (seq a n) k = Some i -> i = a + k.
Proof.
  induction n as [|n IH]; intros a k i E; [destruct k; discriminate|]. destruct k as [|k]; cbn in E; [injection E as <-; lia|]. apply IH in E. lia.
Qed.
Lemma coords_nth : forall suffix a nd k c, nth_error (coords_of suffix a nd) k = Some c ->
  (forall s, alookup (dim_name k ++ suffix) a = Some s -> c = coord_of_spec s) /\ (alookup (dim_name k ++ suffix) a = None -> c = no_coord).
Proof.
  intros suffix a nd k c E. unfold coords_of in E. rewrite nth_error_map in E. destruct (nth_error (seq 0 (N.to_nat nd)) k) as [i|] eqn:E1; [|discriminate].
  apply nth_seq in E1. cbn in E1. subst i. cbn [option_map] in E. split.
  - intros s H. rewrite H in E. injection E as <-. reflexivity.
  - intros H. rewrite H in E. injection E as <-. reflexivity.
Qed.
Lemma coord_spec : forall suffix y nd k c, nth_error (coords_of (strs suffix) (xattrib y) nd) k = Some c -> coordinate suffix y k c.
Proof.
  intros suffix y nd k c E. apply coords_nth in E. unfold coordinate, dim_name in *. replace (k + 1) with (S k) by lia.
  rewrite <- app_assoc in E. assumption.
Qed.

(** ** One node *)
Lemma array_b : forall y t n, dt_parse (attr "data_type" y) = Ok (t, n) -> is_array t = false -> ~ is_array_of_structures y.
Proof. intros y t n E F A. rewrite <- (array_iff _ _ _ E) in A. congruence. Qed.

(** everything that does not depend on the parent *)
Record local_is (y : xml) (i : minfo) (k : option cls) : Prop := {
  li_name : attr "name" y = Some (x_name i);
  li_type : dt_parse (attr "data_type" y) = Ok (x_dtype i, x_ndim i);
  li_path : x_path_string i = attr_or "path" y /\ parse (attr_or "path" y) = Ok (x_path i);
  li_doc : x_path_doc i = attr_or "path_doc" y /\ x_doc i = attr "documentation" y;
  li_time : type_of_value (attr "type" y) = Some (x_type i);
  li_occur : forall z, x_maxoccur i = Some z <-> exists s, attr "maxoccur" y = Some s /\ s <> strs "unbounded" /\ NcEntryModel.py_int s = Some z;
  li_coords : x_coords i = coords_of [] (xattrib y) (x_ndim i);
  li_same : x_same i = coords_of (strs "_same_as") (xattrib y) (x_ndim i);
  li_alts : match attr "alternative_coordinate1" y with
            | None => x_alts i = []
            | Some s => Forall2 (fun a q => parse a = Ok q) (split_on ";"%char s) (x_alts i)
            end;
  li_string : (x_dtype i = Some T_STR -> x_al_ndim i = (x_ndim i + 1)%N) /\ (x_dtype i <> Some T_STR -> x_al_ndim i = x_ndim i);
  li_class : k = type_map (x_dtype i) (x_ndim i) }.
Definition ctx_is (par : option minfo) (cp : str) (i : minfo) : Prop :=
  x_ctx i = match par with None => [] | Some _ => match cp with [] => x_name i | c => c ++ "/"%char :: x_name i end end.
Definition tbp_is (par : option minfo) (y : xml) (i : minfo) : Prop :=
  if is_array (x_dtype i) then x_tbp i = (if is_dynamic (x_type i) then x_ctx i ++ strs "/time" else [])
  else if is_dynamic (x_type i) then match par with
         | None => x_tbp i = [] /\ attr_or "timebasepath" y = []
         | Some pm => x_tbp i = if x_is_dynamic pm then [] else attr_or "timebasepath" y
         end
       else x_tbp i = [].
Definition dyn_is (par : option minfo) (i : minfo) : Prop := x_is_dynamic i = match par with None => false | Some pm => is_dynamic (x_type i) || x_is_dynamic pm end.
Definition units_is (par : option minfo) (y : xml) (i : minfo) : Prop :=
  x_units i = match par with Some pm => if str_eqb (attr_or "units" y) (strs "as_parent") then x_units pm else attr_or "units" y | None => attr_or "units" y end.
Lemma init_inv : forall y cp par i k, init (xattrib y) cp par = Ok (i, k) ->
  local_is y i k /\ ctx_is par cp i /\ tbp_is par y i /\ dyn_is par i /\ units_is par y i.
Proof.
  intros y cp par i k E. unfold init in E. change (att "name" (xattrib y)) with (attr "name" y) in E.
  destruct (attr "name" y) as [name|] eqn:EN; [|discriminate]. cbn [rbind] in E.
  change (att_or "maxoccur" (strs "unbounded") (xattrib y)) with (match attr "maxoccur" y with Some s => s | None => strs "unbounded" end) in E.
  set (occ := match attr "maxoccur" y with Some s => s | None => strs "unbounded" end) in E.
  set (mo := if str_eqb occ (strs "unbounded") then Ok None else match NcEntryModel.py_int occ with Some z => Ok (Some z) | None => Err MeValue end : result me_exn (option Z)) in E.
  destruct mo as [maxoccur|] eqn:EO; [|discriminate]. cbn [rbind] in E.
  change (att "data_type" (xattrib y)) with (attr "data_type" y) in E.
  destruct (dt_parse (attr "data_type" y)) as [[dt nd]|] eqn:ET; [|discriminate]. cbn [rbind fst snd] in E.
  change (att_or "path" [] (xattrib y)) with (attr_or "path" y) in E.
  destruct (rpath (attr_or "path" y)) as [pp|] eqn:EP; [|discriminate]. cbn [rbind] in E. apply rpath_ok in EP.
  change (att "type" (xattrib y)) with (attr "type" y) in E.
  destruct (type_of_value (attr "type" y)) as [ty|] eqn:EY; [|discriminate]. cbn [rbind] in E.
  change (att_or "timebasepath" [] (xattrib y)) with (attr_or "timebasepath" y) in E.
  change (att_or "units" [] (xattrib y)) with (attr_or "units" y) in E.
  match type of E with (rbind ?r _ = _) => destruct r as [tb|] eqn:EB; [|discriminate] end. cbn [rbind] in E.
  change (att "alternative_coordinate1" (xattrib y)) with (attr "alternative_coordinate1" y) in E.
  match type of E with (rbind ?r _ = _) => destruct r as [alts|] eqn:EA; [|discriminate] end. cbn [rbind] in E.
  injection E as <- <-. split; [|split; [|split; [|split]]].
  - constructor; cbn [x_name x_dtype x_ndim x_path_string x_path x_path_doc x_doc x_type x_maxoccur x_coords x_same x_alts x_al_ndim]; auto.
    + intros z. unfold mo, occ in EO. destruct (attr "maxoccur" y) as [s|].
      * destruct (str_eqb s (strs "unbounded")) eqn:E1.
        { apply str_eqb_eq in E1. injection EO as <-. split; [discriminate|]. intros (s' & X & N & _). injection X as <-. contradiction. }
        apply str_eqb_neq in E1. destruct (NcEntryModel.py_int s) as [z'|] eqn:E2; [|discriminate]. injection EO as <-. split.
        { intros X. injection X as <-. exists s. auto. }
        { intros (s' & X & _ & Y). injection X as <-. congruence. }
      * rewrite str_eqb_refl in EO. injection EO as <-. split; [discriminate|]. intros (s' & X & _). discriminate.
    + destruct (attr "alternative_coordinate1" y) as [s|]; [|injection EA as <-; reflexivity]. apply rmap_Forall2 in EA. revert EA. apply Forall2_impl || idtac.
      induction 1; constructor; auto. apply rpath_ok. assumption.
    + split; destruct dt as [[]|]; intros; try congruence; lia.
  - unfold ctx_is. cbn [x_ctx x_name]. reflexivity.
  - unfold tbp_is. cbn [x_dtype x_type x_tbp x_ctx]. destruct (is_array dt); [injection EB as <-; reflexivity|].
    destruct (attr_or "timebasepath" y) as [|ch tl].
    + injection EB as <-. destruct (is_dynamic ty); auto. destruct par as [pm|]; auto. destruct (x_is_dynamic pm); auto.
    + destruct (is_dynamic ty); cbn [negb] in EB; [|injection EB as <-; reflexivity]. destruct par as [pm|]; [injection EB as <-; reflexivity|discriminate].
  - reflexivity.
  - unfold units_is. cbn [x_units]. reflexivity.
Qed.
