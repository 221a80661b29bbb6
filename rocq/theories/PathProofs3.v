(** Parser: equivalence with the grammar, printing round trip, well-formedness. *)
From Coq Require Import ZifyBool ZifyNat ZifyN.
From Verif Require Import Base PathModel PathSpec PathProofs PathProofs2.

(** ** Regular expressions *)
Lemma re_field_tail_spec : forall s, re_field_tail s = true <->
  (forall y, In y s -> name_char y) /\ ~ exists u v, s = u ++ "_"%char :: "_"%char :: v.
Proof.
  induction s as [|x s IH]; cbn [re_field_tail].
  - split; auto. intros _. split; [intros y []|]. intros ([|? ?] & v & H); discriminate.
  - destruct (is_lower x || is_digit x)%bool eqn:E.
    + rewrite IH. split; intros [H1 H2].
      * split.
        -- intros y [<-|Hy]; auto. unfold name_char. apply orb_true_iff in E. tauto.
        -- intros ([|z u] & v & H); simpl in H; inversion H; subst.
           ++ discriminate.
           ++ apply H2. eauto.
      * split; [intros; apply H1; simpl; auto|].
        intros (u & v & H). apply H2. exists (x :: u), v. now rewrite H.
    + destruct (Ascii.eqb x "_") eqn:E2.
      * apply Ascii.eqb_eq in E2; subst x. destruct s as [|y s].
        -- split; auto. intros _. split; [intros z [<-|[]]; unfold name_char; auto|].
           intros ([|? [|? ?]] & v & H); discriminate.
        -- destruct (Ascii.eqb y "_") eqn:E3.
           ++ apply Ascii.eqb_eq in E3; subst y. split; [discriminate|]. intros [_ H]. exfalso. apply H.
              exists [], s. reflexivity.
           ++ rewrite IH. apply Ascii.eqb_neq in E3. split; intros [H1 H2].
              ** split; [intros z [<-|Hz]; [unfold name_char; auto|auto]|].
                 intros ([|z u] & v & H); simpl in H; inversion H; subst; [congruence|].
                 apply H2. eauto.
              ** split; [intros; apply H1; simpl; auto|].
                 intros (u & v & H). apply H2. exists ("_"%char :: u), v. now rewrite H.
      * split; [discriminate|]. intros [H _]. exfalso. apply Ascii.eqb_neq in E2.
        apply orb_false_iff in E as [E0 E1].
        destruct (H x) as [C|[C|C]]; simpl; auto; congruence.
Qed.

Lemma valid_field_spec : forall s, valid_field s = true <-> is_name s.
Proof.
  intros [|x t]; unfold valid_field, is_name.
  - split; [discriminate|]. intros (? & ? & H & _). discriminate.
  - rewrite andb_true_iff, re_field_tail_spec. split.
    + intros (H1 & H2 & H3). exists x, t. repeat split; auto.
      intros ([|z u] & v & H); simpl in H; inversion H; subst; [discriminate|]. apply H3. eauto.
    + intros (y & t' & Heq & H1 & H2 & H3). inversion Heq; subst y t'. repeat split; auto.
      intros (u & v & H). apply H3. exists (x :: u), v. now rewrite H.
Qed.

Lemma forallb_valid : forall l, forallb valid_field l = true <-> Forall is_name l.
Proof.
  intros. rewrite forallb_forall, Forall_forall. split; intros H x Hx; apply valid_field_spec; auto.
Qed.

Lemma re_generic_spec : forall s, re_generic s = true <-> generic s.
Proof.
  intros s. unfold re_generic, generic. rewrite orb_true_iff. split.
  - intros [H|H]; [left; now apply str_eqb_eq|]. right.
    destruct s as [|i [|d [|? ?]]]; try discriminate.
    apply andb_true_iff in H as [H1 H2]. apply Ascii.eqb_eq in H1; subst. eauto.
  - intros [H|(d & Hd & H)]; [left; now apply str_eqb_eq|]. right. subst. now rewrite Ascii.eqb_refl, Hd.
Qed.

Lemma digits_forallb : forall s, forallb is_digit s = true <-> digits s.
Proof. intros. unfold digits. apply forallb_forall. Qed.

Lemma re_number_spec : forall s, re_number s = true <-> s <> [] /\ digits s.
Proof.
  intros [|x t]; unfold re_number.
  - split; [discriminate|]. intros [H _]. congruence.
  - rewrite digits_forallb. split; [split; [discriminate|auto]|tauto].
Qed.

Lemma re_slice_spec : forall s, re_slice s = true <-> exists a b, s = a ++ ":"%char :: b /\ digits a /\ digits b.
Proof.
  induction s as [|x s IH]; cbn [re_slice].
  - split; [discriminate|]. intros ([|? ?] & b & H & _); discriminate.
  - destruct (Ascii.eqb x ":") eqn:E.
    + apply Ascii.eqb_eq in E; subst. rewrite digits_forallb. split.
      * intros H. exists [], s. repeat split; auto. intros ? [].
      * intros ([|y a] & b & H & Ha & Hb); inversion H; subst; auto.
        exfalso. specialize (Ha ":"%char). simpl in Ha. specialize (Ha (or_introl eq_refl)). discriminate.
    + apply Ascii.eqb_neq in E. rewrite andb_true_iff, IH. split.
      * intros (Hx & a & b & -> & Ha & Hb). exists (x :: a), b. repeat split; auto.
        intros y [<-|Hy]; auto.
      * intros ([|y a] & b & H & Ha & Hb); inversion H; subst; [congruence|].
        split; [apply Ha; simpl; auto|]. exists a, b. repeat split; auto.
        intros z Hz. apply Ha. simpl; auto.
Qed.

Lemma digits_no : forall s c, digits s -> is_digit c = false -> ~ In c s.
Proof. intros s c H Hc Hin. apply H in Hin. congruence. Qed.

Lemma parse_slice_spec : forall f a b, digits a -> digits b ->
  parse_slice f (a ++ ":"%char :: b) = ISlice (bound f a) (bound false b).
Proof.
  intros f a b Ha Hb. unfold parse_slice.
  rewrite split_on_app_sep by (apply digits_no; auto).
  rewrite split_on_single by (apply digits_no; auto).
  unfold bound, int_of. destruct a, b; rewrite ?Z.sub_0_r; reflexivity.
Qed.

(** ** Names *)
Lemma name_chars : forall s y, is_name s -> In y s -> name_char y.
Proof.
  intros s y (x & t & -> & Hx & Ht & _) [<-|Hin]; auto. unfold name_char. auto.
Qed.

Lemma name_no : forall s c, is_name s -> is_lower c = false -> is_digit c = false -> c <> "_"%char -> ~ In c s.
Proof. intros s c Hs H1 H2 H3 Hin. destruct (name_chars s c Hs Hin) as [H|[H|H]]; congruence. Qed.

Lemma name_nonnil : forall s, is_name s -> s <> [].
Proof. intros s (x & t & -> & _). discriminate. Qed.

Ltac noname := apply name_no; auto; (reflexivity || discriminate).

Lemma part_names_spec : forall part l, Forall is_name l ->
  (part <> [] /\ part_names part = l <-> names_of part l).
Proof.
  intros part l Hl. split.
  - intros [Hne Hp]. unfold part_names in Hp. destruct part as [|x t]; [congruence|].
    destruct (Ascii.eqb x "/") eqn:E.
    + apply Ascii.eqb_eq in E; subst x. rewrite <- (join_split "/" t). rewrite Hp.
      apply names_slash; auto. rewrite <- Hp. apply split_on_nonnil.
    + rewrite <- (join_split "/" (x :: t)). rewrite Hp. apply names_plain; auto.
      rewrite <- Hp. apply split_on_nonnil.
  - assert (Hs : forall l, l <> [] -> Forall is_name l -> split_on "/" (join_with "/" l) = l).
    { intros. apply split_join; auto. intros p Hin. rewrite Forall_forall in H0. specialize (H0 p Hin).
      noname. }
    intros H. inversion H; subst.
    + assert (Hj : exists x t, join_with "/" l = x :: t /\ x <> "/"%char).
      { destruct l as [|n l]; [congruence|]. inversion H1; subst.
        assert (exists x t, n = x :: t /\ x <> "/"%char) as (x & t & -> & Hx).
        { destruct H4 as (x & t & -> & Hx & _). exists x, t. split; auto. intros ->. discriminate. }
        destruct l; simpl; eauto. }
      destruct Hj as (x & t & Hj & Hx). split; [rewrite Hj; discriminate|].
      unfold part_names. rewrite Hj. apply Ascii.eqb_neq in Hx. rewrite Hx, <- Hj. auto.
    + split; [discriminate|]. unfold part_names. rewrite Ascii.eqb_refl. auto.
Qed.

Lemma names_of_names : forall part l, names_of part l -> Forall is_name l /\ l <> [].
Proof. intros part l H. inversion H; subst; auto. Qed.

(** ** Model <-> grammar *)
Definition agree (mk : str -> result path_exn path) (s : str) :=
  forall ps ix, mk s = Ok (ps, ix) <-> parses s ps ix.

Lemma generic_not_number : forall s, generic s -> s <> [] -> digits s -> False.
Proof.
  intros s [->|(d & Hd & ->)] _ H.
  - specialize (H "i"%char (or_introl eq_refl)). discriminate.
  - specialize (H "i"%char (or_introl eq_refl)). discriminate.
Qed.

Lemma parses_names : forall s ps ix, parses s ps ix -> Forall is_name ps.
Proof.
  assert (G : (forall s ps ix, parses s ps ix -> Forall is_name ps)
    /\ (forall f r ps ix, pieces_path f r ps ix -> Forall is_name ps)
    /\ (forall f s i, index_of f s i -> True)).
  { apply parses_mutind; intros; auto.
    - now apply names_of_names in H.
    - apply names_of_names in H as [H _]. apply Forall_app in H as [H Hn].
      apply Forall_app. split; auto. inversion Hn; subst. constructor; auto. }
  apply G.
Qed.

Lemma index_step : forall mk (f : bool) idx, agree mk idx -> forall i,
  (if re_generic idx then Ok (IGen idx)
   else if re_number idx then Ok (INum (int_of idx - (if f then 1 else 0))%Z)
   else if re_slice idx then Ok (parse_slice f idx)
   else match mk idx with Ok (ps, ix) => Ok (IPath ps ix) | Err e => Err e end) = Ok i <-> index_of f idx i.
Proof.
  intros mk f idx Hag i.
  assert (Hnum_slice : re_number idx = true -> re_slice idx = true -> False).
  { intros H1 H2. apply re_number_spec in H1 as [_ H1]. apply re_slice_spec in H2 as (a & b & -> & _).
    specialize (H1 ":"%char). rewrite in_app_iff in H1. simpl in H1. specialize (H1 (or_intror (or_introl eq_refl))).
    discriminate. }
  assert (Hpath : forall ps ix, parses idx ps ix -> re_number idx = false /\ re_slice idx = false).
  { intros ps ix Hp.
    assert (Hch : forall c, In c idx -> is_digit c = false -> c <> ":"%char -> re_number idx = false /\ re_slice idx = false).
    { intros c Hc Hd Hcol. split.
      - destruct (re_number idx) eqn:E; auto. apply re_number_spec in E as [_ E]. apply E in Hc. congruence.
      - destruct (re_slice idx) eqn:E; auto. apply re_slice_spec in E as (a & b & -> & Ha & Hb).
        apply in_app_iff in Hc. destruct Hc as [Hc|[Hc|Hc]]; try congruence.
        + apply Ha in Hc. congruence.
        + apply Hb in Hc. congruence. }
    assert (Hnm : forall part l, names_of part l -> exists c, In c part /\ is_digit c = false /\ c <> ":"%char).
    { intros part l Hn. assert (exists c, is_digit c = false /\ c <> ":"%char /\ In c (join_with "/" l)) as (c & H1 & H2 & H3).
      { inversion Hn; subst; (destruct l as [|n l]; [congruence|]); inversion H0; subst;
        destruct H3 as (x & t & -> & Hx & _); exists x;
        (split; [|split]);
        [ | |destruct l; simpl; auto| | |destruct l; simpl; auto];
        try (intros ->; discriminate);
        unfold is_lower, is_digit in *; lia. }
      exists c. split; auto. inversion Hn; subst; auto. simpl; auto. }
    assert (Hpp : forall f0 pieces o c ps ix, pieces_path f0 pieces ps ix -> splits o c idx pieces ->
              is_digit o = false -> o <> ":"%char -> idx = [] \/ (re_number idx = false /\ re_slice idx = false)).
    { intros f0 pieces o c ps0 ix0 H1 H2 Ho1 Ho2. inversion H2; subst.
      - inversion H1; subst; auto.
        destruct (Hnm _ _ H4) as (c0 & Hc0 & Hd & Hcol). right. apply (Hch c0); auto.
      - right. apply (Hch o); auto. apply in_or_app. simpl; auto. }
    inversion Hp; subst.
    - destruct (Hpp _ _ _ _ _ _ H1 H0) as [->|Hx]; auto; try discriminate.
    - destruct (Hpp _ _ _ _ _ _ H2 H1) as [->|Hx]; auto; try discriminate. }
  destruct (re_generic idx) eqn:Eg.
  { apply re_generic_spec in Eg. split; intros H.
    - inversion H; subst. now constructor.
    - inversion H; subst; auto.
      + exfalso. eapply generic_not_number; eauto.
      + exfalso. destruct Eg as [Eg|(d & Hd & Eg)].
        * assert (In ":"%char (strs "itime")) by (rewrite <- Eg; apply in_or_app; simpl; auto).
          simpl in H2. intuition discriminate.
        * assert (In ":"%char ["i"%char; d]) by (rewrite <- Eg; apply in_or_app; simpl; auto).
          simpl in H2. destruct H2 as [H2|[H2|[]]]; [discriminate|]. subst. discriminate.
      + contradiction. }
  assert (Hng : ~ generic idx) by (intros C; apply re_generic_spec in C; congruence).
  destruct (re_number idx) eqn:En.
  { split; intros H.
    - inversion H; subst. apply re_number_spec in En as [En1 En2]. now constructor.
    - inversion H; subst; auto; try contradiction.
      + exfalso. assert (re_slice (a ++ ":"%char :: b) = true); [|auto]. apply re_slice_spec. eauto.
      + destruct (Hpath _ _ H1). congruence. }
  destruct (re_slice idx) eqn:Es.
  { split; intros H.
    - apply re_slice_spec in Es as (a & b & -> & Ha & Hb). rewrite parse_slice_spec in H by auto.
      inversion H; subst. now constructor.
    - inversion H; subst; auto; try contradiction.
      + exfalso. assert (re_number idx = true); [|congruence]. apply re_number_spec. auto.
      + now rewrite parse_slice_spec.
      + destruct (Hpath _ _ H1). congruence. }
  split; intros H.
  - destruct (mk idx) as [[ps ix]|e] eqn:Em; inversion H; subst. constructor; auto. now apply Hag.
  - inversion H; subst; try contradiction.
    + exfalso. assert (re_number idx = true); [|congruence]. apply re_number_spec. auto.
    + exfalso. assert (re_slice (a ++ ":"%char :: b) = true); [|congruence]. apply re_slice_spec. eauto.
    + apply Hag in H1. now rewrite H1.
Qed.

Lemma repeat_last : forall {A} (x : A) l n, repeat x (length (l ++ [n]) - 1) = repeat x (@length str l).
Proof. intros. rewrite app_length. simpl. f_equal. lia. Qed.

Lemma last_app : forall {A} (l : list A), l <> [] -> exists l' x, l = l' ++ [x].
Proof. intros A l H. destruct (exists_last H) as (l' & x & ->). eauto. Qed.

Lemma pure_loop_grammar : forall mk f n pieces, length pieces <= n -> Nat.odd (length pieces) = true ->
  (forall i, In i pieces -> length pieces > 1 -> agree mk i) ->
  forall ps ix, (pure_loop mk f pieces = Ok (ps, ix) /\ Forall is_name ps) <-> pieces_path f pieces ps ix.
Proof.
  intros mk f. induction n as [|n IH]; intros pieces Hle Hodd Hag ps ix.
  - destruct pieces; simpl in *; [discriminate|lia].
  - destruct pieces as [|part [|idx rest]]; [discriminate| |].
    + cbn [pure_loop]. destruct part as [|x part].
      * split.
        -- intros [H _]. inversion H; subst. constructor.
        -- intros H. inversion H; subst; auto. destruct (names_of_names _ _ H2) as [Hn _].
           apply part_names_spec in H2 as [H2 _]; auto. congruence.
      * split.
        -- intros [H Hn]. inversion H; subst. apply pp_last. apply part_names_spec; auto. split; auto. discriminate.
        -- intros H. inversion H; subst. destruct (names_of_names _ _ H2) as [Hn _].
           apply part_names_spec in H2 as [_ H2]; auto. rewrite H2. auto.
    + cbn [pure_loop].
      assert (Hidx : agree mk idx) by (apply Hag; simpl; auto; lia).
      assert (Hrest : forall ps ix, (pure_loop mk f rest = Ok (ps, ix) /\ Forall is_name ps) <-> pieces_path f rest ps ix).
      { apply IH; [simpl in Hle; lia|simpl in Hodd; auto|]. intros. apply Hag; simpl in *; auto; lia. }
      pose proof (index_step mk f idx Hidx) as Hix. cbn zeta.
      set (ri := if re_generic idx then _ else _) in *.
      split.
      * intros [H Hn]. destruct part as [|x part]; [discriminate|].
        destruct ri as [i|e]; [|discriminate].
        destruct (pure_loop mk f rest) as [[ps0 ix0]|e] eqn:Er; [|discriminate].
        assert (Hpn : part_names (x :: part) <> []).
        { unfold part_names. apply split_on_nonnil. }
        destruct (last_app _ Hpn) as (l & nm & El). rewrite El in H.
        rewrite repeat_last, <- app_assoc in H. simpl in H. inversion H; subst ps ix.
        apply Forall_app in Hn as [Hn1 Hn2]. inversion Hn2; subst.
        apply pp_index.
        -- apply part_names_spec; [apply Forall_app; split; auto|]. split; [discriminate|auto].
        -- apply Hix. reflexivity.
        -- apply Hrest. auto.
      * intros H. inversion H as [| |? ? ? ? l0 n0 i0 ps0 ix0 Hn0 Hi0 Hr0]; subst.
        destruct (names_of_names _ _ Hn0) as [Hn _].
        apply part_names_spec in Hn0 as [Hne Hpn]; auto. destruct part as [|x part]; [congruence|].
        apply Hix in Hi0. rewrite Hi0. apply Hrest in Hr0 as [Hr0 Hn2]. rewrite Hr0, Hpn.
        rewrite repeat_last, <- app_assoc. simpl. split; auto.
        apply Forall_app in Hn as [Hn3 Hn4]. inversion Hn4; subst. apply Forall_app. split; auto.
Qed.

Lemma contains_spec : forall c s, contains c s = true <-> In c s.
Proof.
  intros. unfold contains. rewrite existsb_exists. split.
  - intros (x & Hx & E). apply Ascii.eqb_eq in E. now subst.
  - intros H. exists c. split; auto. apply Ascii.eqb_refl.
Qed.

Lemma splits_odd : forall o c s r, splits o c s r -> Nat.odd (length r) = true.
Proof. intros o c s r H. induction H; auto. Qed.

Lemma pparse_grammar : forall s, agree pparse s.
Proof.
  intros s. remember (length s) as n eqn:Hn. assert (length s <= n) as Hle by lia. clear Hn. revert s Hle.
  induction n as [n IH] using lt_wf_ind; intros s Hle ps ix. rewrite pparse_unfold. unfold pure_body.
  destruct (contains "(" s) eqn:Ef; simpl andb.
  - apply contains_spec in Ef. destruct (contains "[" s) eqn:Eb.
    + apply contains_spec in Eb. split; [discriminate|]. intros H. inversion H; subst; contradiction.
    + assert (Hb : ~ In "["%char s) by (intros C; apply contains_spec in C; congruence).
      destruct (split_on_matching_parens s _ _) as [pieces|e] eqn:E.
      * apply split_correct in E; [|discriminate].
        assert (Hpl : forall ps ix, pure_loop pparse true pieces = Ok (ps, ix) /\ Forall is_name ps <-> pieces_path true pieces ps ix).
        { apply (pure_loop_grammar pparse true (length pieces) pieces (le_n _) (splits_odd _ _ _ _ E)).
          intros i Hi Hl. pose proof (splits_pieces_shorter _ _ _ _ E Hl i Hi). apply (IH (length i)); lia. }
        split; intros H.
        -- destruct (pure_loop pparse true pieces) as [[ps0 ix0]|e]; [|discriminate].
           destruct (forallb valid_field ps0) eqn:Ev; inversion H; subst.
           eapply parses_fortran; eauto. apply Hpl. split; auto. now apply forallb_valid.
        -- inversion H; subst; [contradiction|]. assert (pieces0 = pieces) as -> by (symmetry; eapply splits_det; eauto; discriminate).
           apply Hpl in H3 as [H3 Hv]. rewrite H3. apply forallb_valid in Hv. now rewrite Hv.
      * split; [discriminate|]. intros H. apply split_error in E as [_ E]; [|discriminate].
        inversion H; subst; [contradiction|]. exfalso. eapply E; eauto.
  - assert (Hf : ~ In "("%char s) by (intros C; apply contains_spec in C; congruence).
    destruct (split_on_matching_parens s _ _) as [pieces|e] eqn:E.
    + apply split_correct in E; [|discriminate].
      assert (Hpl : forall ps ix, pure_loop pparse false pieces = Ok (ps, ix) /\ Forall is_name ps <-> pieces_path false pieces ps ix).
      { apply (pure_loop_grammar pparse false (length pieces) pieces (le_n _) (splits_odd _ _ _ _ E)).
        intros i Hi Hl. pose proof (splits_pieces_shorter _ _ _ _ E Hl i Hi). apply (IH (length i)); lia. }
      split; intros H.
      * destruct (pure_loop pparse false pieces) as [[ps0 ix0]|e]; [|discriminate].
        destruct (forallb valid_field ps0) eqn:Ev; inversion H; subst.
        eapply parses_python; eauto. apply Hpl. split; auto. now apply forallb_valid.
      * inversion H; subst; [|contradiction]. assert (pieces0 = pieces) as -> by (symmetry; eapply splits_det; eauto; discriminate).
        apply Hpl in H2 as [H2 Hv]. rewrite H2. apply forallb_valid in Hv. now rewrite Hv.
    + split; [discriminate|]. intros H. apply split_error in E as [_ E]; [|discriminate].
      inversion H; subst; [|contradiction]. exfalso. eapply E; eauto.
Qed.

Lemma parse_iff : forall s ps ix, parse s = Ok (ps, ix) <-> parses s ps ix.
Proof. intros. rewrite parse_pparse. apply pparse_grammar. Qed.

(** ** Well-formedness of accepted paths *)
Lemma wf_path_app : forall ns is ns' is', wf_path ns is -> wf_path ns' is' -> wf_path (ns ++ ns') (is ++ is').
Proof.
  induction ns as [|n ns IH]; intros is ns' is' H H'; inversion H; subst; simpl; auto. constructor; auto.
Qed.
Lemma wf_path_none : forall l, Forall is_name l -> wf_path l (repeat INone (length l)).
Proof. induction l; simpl; intros H; [constructor|]. inversion H; subst. constructor; auto. constructor. Qed.

Lemma parses_wf : forall s ps ix, parses s ps ix -> wf_path ps ix.
Proof.
  assert (G : (forall s ps ix, parses s ps ix -> wf_path ps ix)
    /\ (forall f r ps ix, pieces_path f r ps ix -> wf_path ps ix)
    /\ (forall f s i, index_of f s i -> wf_index i)).
  { apply parses_mutind; intros; auto; try constructor; auto.
    - apply wf_path_none. now apply names_of_names in H.
    - apply names_of_names in H as [H _]. apply Forall_app in H as [H Hn]. inversion Hn; subst.
      apply wf_path_app; [now apply wf_path_none|]. constructor; auto. }
  apply G.
Qed.

Lemma wf_path_length : forall ps ix, wf_path ps ix -> length ps = length ix.
Proof. induction ps; intros ix H; inversion H; subst; simpl; auto. Qed.

Lemma balanced_none : forall o c s, ~ In o s -> ~ In c s -> balanced o c s.
Proof.
  induction s as [|x s IH]; intros H1 H2; constructor.
  - intros ->; apply H1; simpl; auto.
  - intros ->; apply H2; simpl; auto.
  - apply IH; intros C; [apply H1|apply H2]; simpl; auto.
Qed.

Definition any_bracket (x : ascii) : Prop := x = "("%char \/ x = ")"%char \/ x = "["%char \/ x = "]"%char.

Lemma names_of_no_bracket : forall part l x, names_of part l -> any_bracket x -> ~ In x part.
Proof.
  intros part l x Hn Hx Hin.
  assert (Hj : forall l, Forall is_name l -> ~ In x (join_with "/" l)).
  { induction l0 as [|a l0 IH]; intros Hl; [simpl; auto|]. inversion Hl; subst.
    assert (Ha : ~ In x a) by (destruct Hx as [->|[->|[->| ->]]]; noname).
    destruct l0; [simpl; auto|].
    change (join_with "/" (a :: s :: l0)) with (a ++ "/"%char :: join_with "/" (s :: l0)).
    rewrite in_app_iff. simpl. intros [H|[H|H]]; auto.
    - subst x. destruct Hx as [?|[?|[?|?]]]; discriminate.
    - apply IH in H; auto. }
  inversion Hn; subst.
  - apply Hj in Hin; auto.
  - destruct Hin as [<-|Hin]; [destruct Hx as [?|[?|[?|?]]]; discriminate|]. apply Hj in Hin; auto.
Qed.

Lemma digit_no_bracket : forall x, any_bracket x -> is_digit x = false.
Proof. intros x [->|[->|[->| ->]]]; reflexivity. Qed.

Lemma index_piece_ok : forall f idx i, index_of f idx i ->
  (forall ps ix, i = IPath ps ix -> one_style idx) ->
  (f = true -> ~ In "["%char idx) -> (f = false -> ~ In "("%char idx) ->
  (f = false -> balanced "[" "]" idx /\ ~ In ")"%char idx) /\ (f = true -> balanced "(" ")" idx /\ ~ In "]"%char idx).
Proof.
  intros f idx i H Hp Hf1 Hf2.
  assert (Hnob : (forall x, any_bracket x -> ~ In x idx) ->
    (f = false -> balanced "[" "]" idx /\ ~ In ")"%char idx) /\ (f = true -> balanced "(" ")" idx /\ ~ In "]"%char idx)).
  { intros Hx. split; intros _; split; try (apply Hx; unfold any_bracket; auto);
    apply balanced_none; apply Hx; unfold any_bracket; auto. }
  inversion H; subst.
  - apply Hnob. intros x Hx Hin. destruct H0 as [->|(d & Hd & ->)].
    + destruct Hx as [->|[->|[->| ->]]]; simpl in Hin; intuition discriminate.
    + destruct Hin as [<-|[<-|[]]].
      * destruct Hx as [?|[?|[?|?]]]; discriminate.
      * apply digit_no_bracket in Hx. congruence.
  - apply Hnob. intros x Hx Hin. apply H1 in Hin. apply digit_no_bracket in Hx. congruence.
  - apply Hnob. intros x Hx Hin. apply in_app_iff in Hin. pose proof (digit_no_bracket x Hx).
    destruct Hin as [Hin|[Hin|Hin]].
    + apply H0 in Hin. congruence.
    + subst x. destruct Hx as [?|[?|[?|?]]]; discriminate.
    + apply H1 in Hin. congruence.
  - specialize (Hp _ _ eq_refl). split; intros Hf.
    + destruct Hp as [(Hb & H2 & H3)|(Hb & H2 & H3)]; auto.
      specialize (Hf2 Hf). split.
      * apply balanced_none; auto.
      * intros Hin. (* ( balanced and no "(" means no ")" *)
        pose proof (balanced_run "(" ")" idx ltac:(discriminate) Hb 0) as Hr.
        apply run_cnt in Hr; [|discriminate]. rewrite (cnt_notin "(" idx Hf2) in Hr.
        assert (cnt ")" idx > 0); [|lia]. clear - Hin. induction idx; simpl in *; [tauto|].
        destruct Hin as [->|Hin]; [rewrite Ascii.eqb_refl; lia|]. apply IHidx in Hin. lia.
    + destruct Hp as [(Hb & H2 & H3)|(Hb & H2 & H3)]; auto.
      specialize (Hf1 Hf). split.
      * apply balanced_none; auto.
      * intros Hin.
        pose proof (balanced_run "[" "]" idx ltac:(discriminate) Hb 0) as Hr.
        apply run_cnt in Hr; [|discriminate]. rewrite (cnt_notin "[" idx Hf1) in Hr.
        assert (cnt "]" idx > 0); [|lia]. clear - Hin. induction idx; simpl in *; [tauto|].
        destruct Hin as [->|Hin]; [rewrite Ascii.eqb_refl; lia|]. apply IHidx in Hin. lia.
Qed.

(** every piece of a string occurs in it *)
Lemma splits_pieces_in : forall o c s r, splits o c s r -> forall p x, In p r -> In x p -> In x s.
Proof.
  intros o c s r H. induction H as [p Hp|p i rest r Hp1 Hp2 Hb Hs IH]; intros q x Hq Hx.
  - destruct Hq as [<-|[]]; auto.
  - destruct Hq as [<-|[<-|Hq]]; apply in_or_app; auto; right; right; apply in_or_app; auto.
    right. right. eauto.
Qed.

Lemma splits_balanced : forall o c s r, splits o c s r -> (forall p, In p r -> balanced o c p) -> balanced o c s.
Proof.
  intros o c s r H. induction H as [p Hp|p i rest r Hp1 Hp2 Hb Hs IH]; intros Hbal.
  - apply Hbal; simpl; auto.
  - apply balanced_app; [apply Hbal; simpl; auto|]. apply bal_wrap; auto. apply IH. intros. apply Hbal. simpl; auto.
Qed.

Lemma splits_not_in : forall o c s r x, splits o c s r -> x <> o -> x <> c -> (forall p, In p r -> ~ In x p) -> ~ In x s.
Proof.
  intros o c s r x H Ho Hc. induction H as [p Hp|p i rest r Hp1 Hp2 Hb Hs IH]; intros Hn Hin.
  - apply (Hn p); simpl; auto.
  - apply in_app_iff in Hin. destruct Hin as [Hin|[Hin|Hin]]; auto.
    + apply (Hn p); simpl; auto.
    + apply in_app_iff in Hin. destruct Hin as [Hin|[Hin|Hin]]; auto.
      * apply (Hn i); simpl; auto.
      * apply IH; auto. intros. apply Hn. simpl; auto.
Qed.

Lemma parses_brackets : forall s ps ix, parses s ps ix -> one_style s.
Proof.
  assert (G : (forall s ps ix, parses s ps ix -> one_style s)
    /\ (forall f r ps ix, pieces_path f r ps ix ->
          (f = true -> forall p, In p r -> ~ In "["%char p) -> (f = false -> forall p, In p r -> ~ In "("%char p) ->
          (f = false -> forall p, In p r -> balanced "[" "]" p /\ ~ In ")"%char p) /\
          (f = true -> forall p, In p r -> balanced "(" ")" p /\ ~ In "]"%char p))
    /\ (forall f s i, index_of f s i -> forall ps ix, i = IPath ps ix -> one_style s)).
  { apply parses_mutind.
    - intros s pieces ps ix Hn Hs Hp IH. left.
      destruct IH as [IH _]; [discriminate| |].
      { intros _ p Hin Hx. apply Hn. eapply splits_pieces_in; eauto. }
      specialize (IH eq_refl). split; [|split]; auto.
      + eapply splits_balanced; eauto. intros. now apply IH.
      + eapply splits_not_in; eauto; try discriminate. intros. now apply IH.
    - intros s pieces ps ix Hin Hn Hs Hp IH. right.
      destruct IH as [_ IH]; [|discriminate|].
      { intros _ p Hin2 Hx. apply Hn. eapply splits_pieces_in; eauto. }
      specialize (IH eq_refl). split; [|split]; auto.
      + eapply splits_balanced; eauto. intros. now apply IH.
      + eapply splits_not_in; eauto; try discriminate. intros. now apply IH.
    - intros f _ _. split; intros _ p [<-|[]]; split; auto; constructor.
    - intros f last l Hn _ _.
      assert (Hx : forall x, any_bracket x -> ~ In x last) by (intros; eapply names_of_no_bracket; eauto).
      split; intros _ p [<-|[]]; split; try (apply Hx; unfold any_bracket; auto);
        apply balanced_none; apply Hx; unfold any_bracket; auto.
    - intros f part idx rest l n i ps ix Hn Hi IHi Hr IHr Hf1 Hf2.
      assert (Hx : forall x, any_bracket x -> ~ In x part) by (intros; eapply names_of_no_bracket; eauto).
      destruct IHr as [IHr1 IHr2].
      { intros. apply Hf1; simpl; auto. } { intros. apply Hf2; simpl; auto. }
      destruct (index_piece_ok f idx i Hi IHi) as [Hi1 Hi2].
      { intros. apply Hf1; simpl; auto. } { intros. apply Hf2; simpl; auto. }
      split; intros Hf p [<-|[<-|Hp]]; auto; split; try (apply Hx; unfold any_bracket; auto);
        apply balanced_none; apply Hx; unfold any_bracket; auto.
    - discriminate.
    - discriminate.
    - discriminate.
    - intros f s ps ix Hg Hp IH ps0 ix0 _. auto. }
  apply G.
Qed.

(** ** Printing then parsing *)
Definition lead_text (lead : bool) (acc : list str) : str :=
  (if lead then ["/"%char] else []) ++ concat (map (fun a => a ++ ["/"%char]) acc).

Lemma join_snoc : forall acc n, join_with "/" (acc ++ [n]) = concat (map (fun a => a ++ ["/"%char]) acc) ++ n.
Proof.
  induction acc as [|a acc IH]; intros n; auto.
  cbn [map concat]. rewrite <- app_assoc, <- app_assoc, <- IH. simpl.
  destruct (acc ++ [n]) eqn:E; auto. destruct acc; discriminate.
Qed.

Lemma names_of_lead : forall lead acc n, Forall is_name (acc ++ [n]) -> names_of (lead_text lead acc ++ n) (acc ++ [n]).
Proof.
  intros lead acc n H. unfold lead_text.
  assert (acc ++ [n] <> []) by (destruct acc; discriminate).
  destruct lead; simpl; rewrite <- join_snoc; now constructor.
Qed.

Definition op (f : bool) : ascii := if f then "("%char else "["%char.
Definition cl (f : bool) : ascii := if f then ")"%char else "]"%char.
Definition num_text (f : bool) (i : N) : str := show_N (if f then i + 1 else i)%N.

Lemma print_step_some : forall f n i, print_step f (n, Some i) = n ++ op f :: num_text f i ++ [cl f].
Proof. intros [] n i; reflexivity. Qed.

Lemma num_text_digits : forall f i, digits (num_text f i).
Proof. intros. apply digits_forallb. apply show_N_digits. Qed.

Lemma num_text_index : forall f i, index_of f (num_text f i) (INum (Z.of_N i)).
Proof.
  intros f i.
  replace (Z.of_N i) with (Z.of_N (dec_value (num_text f i)) - (if f then 1 else 0))%Z.
  - constructor; [apply show_N_nonnil|apply num_text_digits].
  - unfold num_text. rewrite show_N_value. destruct f; lia.
Qed.

Lemma op_bracket : forall f, any_bracket (op f). Proof. destruct f; unfold any_bracket; auto. Qed.
Lemma cl_bracket : forall f, any_bracket (cl f). Proof. destruct f; unfold any_bracket; auto. Qed.

Lemma print_pieces : forall f l, l <> [] -> Forall (fun s => is_name (fst s)) l ->
  forall lead acc, Forall is_name acc ->
  exists r, splits (op f) (cl f) (lead_text lead acc ++ print_steps f l) r
    /\ pieces_path f r (acc ++ map fst l) (repeat INone (length acc) ++ map step_index l).
Proof.
  intros f. induction l as [|[n oi] l IH]; intros Hne Hl lead acc Hacc; [congruence|].
  inversion Hl; subst. simpl in H1.
  assert (Hn : names_of (lead_text lead acc ++ n) (acc ++ [n])).
  { apply names_of_lead. apply Forall_app. auto. }
  assert (Hob : ~ In (op f) (lead_text lead acc ++ n)) by (eapply names_of_no_bracket; eauto; apply op_bracket).
  assert (Hcb : ~ In (cl f) (lead_text lead acc ++ n)) by (eapply names_of_no_bracket; eauto; apply cl_bracket).
  assert (Hbal : forall i, balanced (op f) (cl f) (num_text f i)).
  { intros i. apply balanced_none; apply digits_no; try apply num_text_digits; destruct f; reflexivity. }
  assert (Hlast : forall x, repeat INone (length (acc ++ [x])) = repeat INone (length acc) ++ [INone]).
  { intros x. rewrite app_length. simpl. now rewrite repeat_app. }
  destruct l as [|s2 l].
  - destruct oi as [i|].
    + exists [lead_text lead acc ++ n; num_text f i; []].
      change (print_steps f [(n, Some i)]) with (print_step f (n, Some i)). rewrite print_step_some. split.
      * rewrite app_assoc. apply splits_cons; auto. now apply splits_last.
      * simpl. apply (pp_index f _ _ [[]] acc n (INum (Z.of_N i)) [] []); auto.
        -- apply num_text_index.
        -- constructor.
    + exists [lead_text lead acc ++ n]. simpl. split; [now apply splits_last|].
      unfold step_index. simpl. rewrite <- (Hlast n). now apply pp_last.
  - change (print_steps f ((n, oi) :: s2 :: l)) with (print_step f (n, oi) ++ "/"%char :: print_steps f (s2 :: l)).
    destruct oi as [i|].
    + destruct (IH ltac:(discriminate) H2 true [] (Forall_nil _)) as (r & Hs & Hp).
      exists (lead_text lead acc ++ n :: num_text f i :: r) || exists ((lead_text lead acc ++ n) :: num_text f i :: r).
      split.
      * rewrite print_step_some.
        replace (lead_text lead acc ++ (n ++ op f :: num_text f i ++ [cl f]) ++ "/"%char :: print_steps f (s2 :: l))
          with ((lead_text lead acc ++ n) ++ op f :: num_text f i ++ cl f :: (lead_text true [] ++ print_steps f (s2 :: l))).
        2:{ unfold lead_text. simpl. rewrite <- !app_assoc. simpl. rewrite <- !app_assoc. reflexivity. }
        apply splits_cons; auto.
      * simpl in Hp. cbn [map]. apply pp_index; auto. apply num_text_index.
    + destruct (IH ltac:(discriminate) H2 lead (acc ++ [n])) as (r & Hs & Hp); [apply Forall_app; auto|].
      exists r. split.
      * replace (lead_text lead acc ++ print_step f (n, None) ++ "/"%char :: print_steps f (s2 :: l))
          with (lead_text lead (acc ++ [n]) ++ print_steps f (s2 :: l)); auto.
        unfold lead_text. rewrite map_app, concat_app. simpl. rewrite <- !app_assoc. simpl. reflexivity.
      * rewrite Hlast, <- !app_assoc in Hp. exact Hp.
Qed.

Lemma print_no_index : forall l, existsb (fun s : step => match snd s with Some _ => true | None => false end) l = false ->
  print_steps true l = print_steps false l.
Proof.
  induction l as [|[n [i|]] l IH]; simpl; intros H; auto; [discriminate|].
  destruct l; auto. now rewrite IH.
Qed.

Lemma print_has_open : forall f l, existsb (fun s : step => match snd s with Some _ => true | None => false end) l = true ->
  In (op f) (print_steps f l).
Proof.
  intros f. induction l as [|[n oi] l IH]; [discriminate|]. intros H.
  assert (Hs : forall i, In (op f) (print_step f (n, Some i))).
  { intros i. rewrite print_step_some. apply in_or_app. simpl; auto. }
  destruct l as [|s2 l].
  - destruct oi; [apply Hs|discriminate].
  - change (print_steps f ((n, oi) :: s2 :: l)) with (print_step f (n, oi) ++ "/"%char :: print_steps f (s2 :: l)).
    apply in_or_app. destruct oi as [i|]; [left; apply Hs|]. right. right. apply IH. simpl in H. auto.
Qed.

Lemma print_no_other : forall f x l, any_bracket x -> x <> op f -> x <> cl f -> Forall (fun s => is_name (fst s)) l ->
  ~ In x (print_steps f l).
Proof.
  intros f x l Hx Ho Hc. induction l as [|[n oi] l IH]; intros Hl; [simpl; auto|]. inversion Hl; subst. simpl in H1.
  assert (Hn : ~ In x n) by (destruct Hx as [->|[->|[->| ->]]]; noname).
  assert (Hs : ~ In x (print_step f (n, oi))).
  { destruct oi as [i|]; [|exact Hn]. rewrite print_step_some, in_app_iff. simpl. rewrite in_app_iff.
    intros [H|[H|[H|[H|[]]]]]; auto. apply num_text_digits in H. apply digit_no_bracket in Hx. congruence. }
  destruct l as [|s2 l]; [exact Hs|].
  change (print_steps f ((n, oi) :: s2 :: l)) with (print_step f (n, oi) ++ "/"%char :: print_steps f (s2 :: l)).
  rewrite in_app_iff. intros [H|[H|H]]; auto.
  - subst. destruct Hx as [?|[?|[?|?]]]; discriminate.
  - apply IH; auto.
Qed.

Lemma print_parse : forall f l, l <> [] -> Forall (fun s => is_name (fst s)) l ->
  parse (print_steps f l) = Ok (map fst l, map step_index l).
Proof.
  assert (Hpy : forall l, l <> [] -> Forall (fun s => is_name (fst s)) l ->
    parse (print_steps false l) = Ok (map fst l, map step_index l)).
  { intros l Hne Hl. apply parse_iff.
    destruct (print_pieces false l Hne Hl false [] (Forall_nil _)) as (r & Hs & Hp). simpl in Hs, Hp.
    eapply parses_python; eauto. apply print_no_other; auto; try discriminate. unfold any_bracket; auto. }
  intros [] l Hne Hl; auto.
  destruct (existsb (fun s : step => match snd s with Some _ => true | None => false end) l) eqn:E.
  - apply parse_iff.
    destruct (print_pieces true l Hne Hl false [] (Forall_nil _)) as (r & Hs & Hp). simpl in Hs, Hp.
    eapply parses_fortran; eauto.
    + apply (print_has_open true l E).
    + apply print_no_other; auto; try discriminate. unfold any_bracket; auto.
  - rewrite print_no_index by auto. auto.
Qed.

Lemma list_str_eqb_eq : forall a b, list_str_eqb a b = true <-> a = b.
Proof.
  induction a as [|x a IH]; intros [|y b]; simpl; split; intros H; try discriminate; auto.
  - apply andb_true_iff in H as [H1 H2]. apply str_eqb_eq in H1. apply IH in H2. congruence.
  - inversion H; subst. rewrite str_eqb_refl. simpl. now apply IH.
Qed.

Lemma is_ancestor_spec : forall p q, is_ancestor_of p q = true <-> exists n t, fst q = fst p ++ n :: t.
Proof.
  intros [p pi] [q qi]. unfold is_ancestor_of. simpl. rewrite andb_true_iff, list_str_eqb_eq, Nat.ltb_lt. split.
  - intros [Hl Hf]. rewrite <- (firstn_skipn (length p) q), Hf.
    destruct (skipn (length p) q) as [|n t] eqn:E; eauto.
    apply (f_equal (@length _)) in E. rewrite skipn_length in E. simpl in E. lia.
  - intros (n & t & ->). rewrite app_length. simpl. split; [lia|].
    now rewrite firstn_app, firstn_all, Nat.sub_diag, firstn_O, app_nil_r.
Qed.
