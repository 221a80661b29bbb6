(** C06: data type names. *)
From Coq Require Import ZifyBool ZifyNat ZifyN.
From Verif Require Import Base DataTypeModel.

(** Specification: the elementary types with their upper case names. *)
Inductive elem_name : ids_dtype -> str -> Prop :=
| en_str : elem_name T_STR (strs "STR") | en_int : elem_name T_INT (strs "INT")
| en_flt : elem_name T_FLT (strs "FLT") | en_cpx : elem_name T_CPX (strs "CPX").

(** Two strings are the same up to the case of ASCII letters. *)
Definition same_case_insensitive (a b : str) : Prop := upper a = upper b.

Lemma upper_app : forall a b, upper (a ++ b) = upper a ++ upper b.
Proof. intros. apply map_app. Qed.

Lemma dtype_of_elem : forall t n, elem_name t n -> dtype_of_value n = Ok t.
Proof. intros t n []; reflexivity. Qed.

Lemma dtype_of_upper : forall s t, dtype_of_value (upper s) = Ok t -> elem_name t (upper s).
Proof.
  intros s t H. unfold dtype_of_value in H.
  assert (Hno : forall k, In "u"%char k \/ In "s"%char k -> str_eqb (upper s) k = false).
  { intros k Hk. apply str_eqb_neq. intros C. 
    assert (Hl : forall c, In c (upper s) -> is_lower c = false).
    { intros c Hc. unfold upper in Hc. apply in_map_iff in Hc as (d & <- & _). unfold upper_chr.
      destruct (is_lower d) eqn:E; auto. unfold is_lower in *. 
      rewrite N_ascii_embedding; lia. }
    destruct Hk as [Hk|Hk]; rewrite <- C in Hk; apply Hl in Hk; discriminate. }
  rewrite (Hno (strs "structure")) in H by (right; simpl; auto).
  rewrite (Hno (strs "struct_array")) in H by (right; simpl; auto).
  destruct (str_eqb (upper s) (strs "STR")) eqn:E1; [apply str_eqb_eq in E1; rewrite E1; inversion H; constructor|].
  destruct (str_eqb (upper s) (strs "INT")) eqn:E2; [apply str_eqb_eq in E2; rewrite E2; inversion H; constructor|].
  destruct (str_eqb (upper s) (strs "FLT")) eqn:E3; [apply str_eqb_eq in E3; rewrite E3; inversion H; constructor|].
  destruct (str_eqb (upper s) (strs "CPX")) eqn:E4; [apply str_eqb_eq in E4; rewrite E4; inversion H; constructor|].
  discriminate.
Qed.

Lemma upper_chr_idem : forall c, upper_chr (upper_chr c) = upper_chr c.
Proof. intros [[] [] [] [] [] [] [] []]; reflexivity. Qed.

Lemma dtype_of_part : forall s t p r, split_on "_" (upper s) = p :: r -> dtype_of_value p = Ok t -> elem_name t p.
Proof.
  intros s t p r Hs Hp. assert (exists q, p = upper q) as [q ->].
  { exists p. pose proof (join_split "_" (upper s)) as J. rewrite Hs in J.
    assert (Hin : forall c, In c p -> In c (upper s)).
    { intros c Hc. rewrite <- J. destruct r; simpl; auto. apply in_or_app; auto. }
    assert (Hl : forall c, In c (upper s) -> upper_chr c = c).
    { intros c Hc. unfold upper in Hc. apply in_map_iff in Hc as (d & <- & _). apply upper_chr_idem. }
    unfold upper. rewrite <- (map_id p) at 1. apply map_ext_in. intros c Hc. symmetry. auto. }
  now apply dtype_of_upper.
Qed.

Lemma elem_no_us : forall t n, elem_name t n -> ~ In "_"%char n.
Proof. intros t n []; simpl; intuition discriminate. Qed.

(** The accepted names, and what they mean:
    - "structure" and "struct_array";
    - up to case, TYP_TYPE (dimension 0);
    - up to case, TYP_d... where d is a digit (dimension d), whatever follows. *)
Inductive names_type : str -> ids_dtype -> N -> Prop :=
| nt_struct : names_type (strs "structure") T_STRUCTURE 0
| nt_aos : names_type (strs "struct_array") T_STRUCT_ARRAY 1
| nt_legacy0 : forall s t n, elem_name t n -> upper s = n ++ strs "_TYPE" -> names_type s t 0
| nt_dim : forall s t n d rest, elem_name t n -> (d < 10)%N ->
    upper s = n ++ "_"%char :: digit_chr d :: rest -> names_type s t d.

Lemma digit_chr_val : forall c, is_digit c = true -> (digit_val c < 10)%N /\ digit_chr (digit_val c) = c.
Proof.
  intros c H. unfold is_digit, digit_val, digit_chr in *.
  assert (N.leb 48 (N_of_ascii c) = true /\ N.leb (N_of_ascii c) 57 = true) as [H1 H2]
    by (apply andb_true_iff; auto).
  apply N.leb_le in H1, H2. split; [lia|]. replace (N_of_ascii c - 48 + 48)%N with (N_of_ascii c) by lia.
  apply ascii_N_embedding.
Qed.

Lemma split_parts : forall s d r0 rt, split_on "_" s = d :: r0 :: rt -> exists tl, s = d ++ "_"%char :: r0 ++ tl
  /\ (rt = [] -> tl = []).
Proof.
  intros s d r0 rt H. pose proof (join_split "_" s) as J. rewrite H in J.
  change (join_with "_" (d :: r0 :: rt)) with (d ++ "_"%char :: join_with "_" (r0 :: rt)) in J.
  destruct rt as [|r1 rt].
  - exists []. rewrite app_nil_r. simpl in J. auto.
  - exists ("_"%char :: join_with "_" (r1 :: rt)). split; [rewrite <- J; reflexivity|discriminate].
Qed.

Lemma upper_not_special : forall s n rest, upper s = n ++ "_"%char :: rest -> (exists t, elem_name t n) ->
  str_eqb s (strs "structure") = false /\ str_eqb s (strs "struct_array") = false.
Proof.
  intros s n rest H (t & Hn). split; apply str_eqb_neq; intros ->.
  - assert (In "_"%char (upper (strs "structure"))) as C by (rewrite H; apply in_or_app; simpl; auto).
    vm_compute in C. intuition discriminate.
  - assert (upper (strs "struct_array") = strs "STRUCT_ARRAY") as E by reflexivity. rewrite E in H.
    inversion Hn; subst; simpl in H; inversion H.
Qed.

Lemma dt_parse_iff : forall s t d, dt_parse (Some s) = Ok (Some t, d) <-> names_type s t d.
Proof.
  intros s t d. split.
  - unfold dt_parse. destruct (str_eqb s (strs "structure")) eqn:E1.
    { apply str_eqb_eq in E1; subst. intros H. inversion H. constructor. }
    destruct (str_eqb s (strs "struct_array")) eqn:E2.
    { apply str_eqb_eq in E2; subst. intros H. inversion H. constructor. }
    destruct (split_on "_" (upper s)) as [|dt [|r0 rt]] eqn:Es; try discriminate.
    destruct (split_parts _ _ _ _ Es) as (tl & Hu & Htl).
    destruct (str_eqb r0 (strs "TYPE") && match rt with [] => true | _ => false end) eqn:E3.
    + apply andb_true_iff in E3 as [E3 E4]. apply str_eqb_eq in E3; subst r0.
      destruct rt; [|discriminate]. rewrite (Htl eq_refl), app_nil_r in Hu.
      destruct (dtype_of_value dt) as [t'|] eqn:Ed; simpl; [|discriminate]. intros H. inversion H; subst.
      apply (nt_legacy0 s t dt); auto. eapply dtype_of_part; eauto.
    + destruct r0 as [|c r0]; [discriminate|]. destruct (is_digit c) eqn:Ec; [|discriminate].
      destruct (dtype_of_value dt) as [t'|] eqn:Ed; simpl; [|discriminate]. intros H. inversion H; subst.
      destruct (digit_chr_val c Ec) as [Hlt Heq].
      apply (nt_dim s t dt (digit_val c) (r0 ++ tl)); auto.
      * eapply dtype_of_part; eauto.
      * rewrite Heq. exact Hu.
  - intros H. inversion H; subst; try reflexivity.
    + destruct (upper_not_special s n (strs "TYPE") H1 ltac:(eauto)) as [E1 E2].
      unfold dt_parse. rewrite E1, E2, H1. change (strs "_TYPE") with ("_"%char :: strs "TYPE").
      rewrite split_on_app_sep by (eapply elem_no_us; eauto). simpl.
      rewrite (dtype_of_elem t n); auto.
    + destruct (upper_not_special s n (digit_chr d :: rest) H2 ltac:(eauto)) as [E1 E2].
      unfold dt_parse. rewrite E1, E2, H2.
      rewrite split_on_app_sep by (eapply elem_no_us; eauto).
      assert (Hd : digit_chr d <> "_"%char).
      { intros C. pose proof (digit_chr_is_digit d H1) as D. rewrite C in D. discriminate. }
      cbn [split_on]. apply Ascii.eqb_neq in Hd. rewrite Hd.
      pose proof (split_on_nonnil "_" rest). destruct (split_on "_" rest) as [|h r] eqn:Er; [congruence|].
      assert (str_eqb (digit_chr d :: h) (strs "TYPE") = false) as ->.
      { apply str_eqb_neq. intros C. pose proof (digit_chr_is_digit d H1) as D. inversion C. rewrite H5 in D. discriminate. }
      cbn [andb]. rewrite digit_chr_is_digit by auto. rewrite (dtype_of_elem t n) by auto. simpl.
      rewrite digit_val_chr; auto.
Qed.

(** C06: exact characterisation of the accepted names and their meaning. *)
Theorem C06_accepts_exactly : forall s t d, dt_parse (Some s) = Ok (Some t, d) <-> names_type s t d.
Proof. exact dt_parse_iff. Qed.
Print Assumptions C06_accepts_exactly.

(** C06: canonical names TYP_dD and legacy names typ_dd_type, typ_type round trip. *)
Theorem C06_canonical : forall t n d, elem_name t n -> (d < 10)%N ->
  dt_parse (Some (n ++ "_"%char :: digit_chr d :: strs "D")) = Ok (Some t, d).
Proof.
  intros t n d Hn Hd. apply dt_parse_iff. apply (nt_dim _ t n d (strs "D")); auto.
  rewrite upper_app. f_equal; [inversion Hn; reflexivity|]. simpl. f_equal. f_equal.
  unfold upper_chr. assert (is_lower (digit_chr d) = false) as ->; auto.
  pose proof (digit_chr_is_digit d Hd) as D. unfold is_digit, is_lower in *. lia.
Qed.
Print Assumptions C06_canonical.

Theorem C06_case_insensitive : forall s s' t n, elem_name t n ->
  same_case_insensitive s s' -> forall d, dt_parse (Some s) = Ok (Some t, d) -> dt_parse (Some s') = Ok (Some t, d).
Proof.
  intros s s' t n Hn Hs d H. apply dt_parse_iff in H. apply dt_parse_iff. unfold same_case_insensitive in Hs.
  inversion H; subst; try (inversion Hn; fail).
  - eapply nt_legacy0; [eassumption|]. now rewrite <- Hs.
  - eapply nt_dim; [eassumption|assumption|]. rewrite <- Hs. eassumption.
Qed.
Print Assumptions C06_case_insensitive.

(** Any accepted name has a dimension below ten. *)
Theorem C06_dimension_bounded : forall s t d, dt_parse (Some s) = Ok (t, d) -> (d < 10)%N.
Proof.
  intros s t d H. destruct t as [t|].
  - apply dt_parse_iff in H. inversion H; subst; lia.
  - unfold dt_parse, rbind in H. destruct (str_eqb s _); [destruct (dtype_of_value s); discriminate|].
    destruct (str_eqb s _); [destruct (dtype_of_value s); discriminate|].
    destruct (split_on "_" (upper s)) as [|w [|r0 ?]]; try discriminate.
    destruct (str_eqb r0 _ && _)%bool; [destruct (dtype_of_value w); discriminate|].
    destruct r0; [discriminate|]. destruct (is_digit a); [destruct (dtype_of_value w)|]; discriminate.
Qed.
Print Assumptions C06_dimension_bounded.

(** The converse reading "an accepted name denotes the dimension it spells" is false: only one digit is read. *)
Theorem C06_multi_digit_refuted : exists s, s = strs "FLT_10D" /\ dt_parse (Some s) = Ok (Some T_FLT, 1%N).
Proof. exists (strs "FLT_10D"). split; vm_compute; reflexivity. Qed.
Print Assumptions C06_multi_digit_refuted.

Example C06_example : elem_name T_CPX (strs "CPX") /\ (6 < 10)%N /\ dt_parse (Some (strs "CPX_6D")) = Ok (Some T_CPX, 6%N).
Proof. repeat split. constructor. Qed.
