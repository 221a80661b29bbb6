(** C60: opening a data entry. *)
From Verif Require Import Base OpenModel OpenSpec OpenProofs.
From Coq Require Import Lia.

Section Args.
Variables (args : list arg) (kw : list (str * arg)).
Hypothesis ND : NoDup (map fst kw).
Lemma shot_In : forall v, alookup (strs "shot") kw = Some v -> alookup (strs "pulse") kw = None -> forall k,
  In k (filter (fun k => negb (str_eqb (fst k) (strs "shot"))) kw ++ [(strs "pulse", v)]) <-> In k (as_pulse kw).
Proof.
  intros v S P [n x]. unfold as_pulse. rewrite in_app_iff, filter_In, List.in_map_iff. cbn [fst snd]. split.
  - intros [(I & E)|[E|[]]].
    + exists (n, x). cbn [fst snd]. destruct (str_eqb n (strs "shot")); [discriminate|auto].
    + injection E as <- <-. exists (strs "shot", v). cbn [fst snd]. rewrite str_eqb_refl. split; auto. now apply alookup_In.
  - intros ((n' & x') & E & I). cbn [fst snd] in E. destruct (str_eqb n' (strs "shot")) eqn:Q.
    + right. left. apply str_eqb_eq in Q. subst n'. injection E as <- <-. f_equal. apply alookup_NoDup_In in I; auto. congruence.
    + left. injection E as <- <-. rewrite Q. auto.
Qed.
Lemma shot_nodup : forall v, alookup (strs "pulse") kw = None -> NoDup (map fst (filter (fun k => negb (str_eqb (fst k) (strs "shot"))) kw ++ [(strs "pulse", v)])).
Proof.
  intros v P. rewrite map_app. cbn [map fst]. apply alookup_None_keys in P. unfold akeys in P. set (f := fun k : str * arg => negb (str_eqb (fst k) (strs "shot"))). remember (strs "pulse") as pu. clearbody f. clear Heqpu.
  assert (SUB : forall n, In n (map fst (filter f kw)) -> In n (map fst kw)) by (intros n I; apply List.in_map_iff in I; destruct I as (k & <- & I); apply filter_In in I; apply List.in_map; tauto).
  assert (N2 : NoDup (map fst (filter f kw))).
  { clear - ND. induction kw as [|k l IH]; cbn [filter map]; [constructor|]. inversion ND as [|? ? N1 N2]; subst. specialize (IH N2). destruct (f k); auto. cbn [map]. constructor; auto. intros I. apply N1. apply List.in_map_iff in I. destruct I as (k' & E & I). apply filter_In in I. rewrite <- E. apply List.in_map. tauto. }
  assert (N3 : ~ In pu (map fst (filter f kw))) by auto. clear - N2 N3. induction (map fst (filter f kw)) as [|x l IH]; cbn; [constructor; auto; constructor|].
  inversion N2; subst. constructor; [|apply IH; auto; intros I; apply N3; right; auto]. intros I. apply in_app_or in I. destruct I as [I|[I|[]]]; auto. apply N3. left. auto.
Qed.
Lemma no_shot : alookup (strs "shot") kw = None -> as_pulse kw = kw.
Proof.
  intros S. apply alookup_None_keys in S. unfold akeys in S. unfold as_pulse. induction kw as [|[n v] l IH]; cbn [map fst snd]; auto. cbn [map fst] in S.
  destruct (str_eqb n (strs "shot")) eqn:E; [apply str_eqb_eq in E; exfalso; apply S; left; auto|]. f_equal. apply IH; [now inversion ND|]. intros I. apply S. right. auto.
Qed.
(** C60: the form with a URI is taken exactly if all arguments fit it; otherwise the form with legacy parameters, where shot may be given for
    pulse but not beside it; otherwise it is a TypeError. *)
Theorem C60_arguments :
  (forall u m, parse_args args kw = Ok (ByUri u m) <-> takes uri_form args kw [u; m]) /\
  (forall l, parse_args args kw = Ok (Legacy l) <->
     (forall vs, ~ takes uri_form args kw vs) /\ ~ (In (strs "shot") (map fst kw) /\ In (strs "pulse") (map fst kw)) /\ takes legacy_form args (as_pulse kw) l) /\
  (parse_args args kw = Err ArgValue <-> (forall vs, ~ takes uri_form args kw vs) /\ In (strs "shot") (map fst kw) /\ In (strs "pulse") (map fst kw)) /\
  (parse_args args kw = Err ArgType <-> (forall vs, ~ takes uri_form args kw vs) /\ ~ (In (strs "shot") (map fst kw) /\ In (strs "pulse") (map fst kw)) /\ forall l, ~ takes legacy_form args (as_pulse kw) l).
Proof.
  unfold parse_args. change uri_mode with uri_form. change legacy_params with legacy_form.
  assert (LK : forall n, In n (map fst kw) <-> exists v, alookup n kw = Some v).
  { intros n. destruct (alookup n kw) as [v|] eqn:E; [split; eauto; intros _; apply alookup_In in E; apply (List.in_map fst) in E; exact E|]. apply alookup_None_keys in E. split; [intros I; destruct (E I)|intros (v & Q); discriminate]. }
  destruct (bind uri_form args kw) as [vs|] eqn:B.
  - pose proof (proj1 (bind_takes _ _ _ _ ND) B) as T. pose proof (takes_length _ _ _ _ T) as LV. destruct vs as [|u [|m [|x vs]]]; cbn in LV; try lia.
    assert (U : forall vs', takes uri_form args kw vs' -> vs' = [u; m]) by (intros vs' T'; apply bind_takes in T'; auto; congruence).
    split; [intros u' m'|split; [intros l|split]]; split; try (intros Q; discriminate Q); try (intros (Q & _); destruct (Q _ T)).
    + intros [= <- <-]. exact T.
    + intros T'. apply U in T'. congruence.
  - assert (NT : forall vs, ~ takes uri_form args kw vs) by (intros vs T; apply bind_takes in T; auto; congruence).
    assert (KW : (In (strs "shot") (map fst kw) /\ In (strs "pulse") (map fst kw)) \/ (~ (In (strs "shot") (map fst kw) /\ In (strs "pulse") (map fst kw)) /\ 
       exists kw', NoDup (map fst kw') /\ (forall k, In k kw' <-> In k (as_pulse kw)) /\
         match alookup (strs "shot") kw with None => Ok kw | Some v => match alookup (strs "pulse") kw with Some _ => Err ArgValue | None => Ok (filter (fun k => negb (str_eqb (fst k) (strs "shot"))) kw ++ [(strs "pulse", v)]) end end = Ok kw')).
    { destruct (alookup (strs "shot") kw) as [v|] eqn:S.
      - destruct (alookup (strs "pulse") kw) as [p|] eqn:P; [left; split; apply LK; eauto|]. right. split; [rewrite !LK, P; intros (_ & p & Q); discriminate|]. eexists. split; [|split; [|reflexivity]]; [now apply shot_nodup|now apply shot_In].
      - right. split; [rewrite !LK, S; intros ((p & Q) & _); discriminate|]. exists kw. rewrite no_shot by auto. split; auto. split; [tauto|reflexivity]. }
    destruct KW as [(IS & IP)|(NSP & kw' & ND' & IK & E)].
    + pose proof (proj1 (LK _) IS) as (v & ->). pose proof (proj1 (LK _) IP) as (p & ->). cbn [rbind].
      split; [intros u' m'|split; [intros l|split]]; split; try (intros Q; discriminate Q); try (intros Q; now destruct (NT _ Q)); try (intros (_ & Q & _); tauto); auto.
    + rewrite E. cbn [rbind]. assert (TK : forall l, takes legacy_form args kw' l <-> takes legacy_form args (as_pulse kw) l) by (intros l; split; apply takes_In; [exact IK|intros k; symmetry; apply IK]).
      destruct (bind legacy_form args kw') as [l|] eqn:BL.
      * pose proof (proj1 (bind_takes _ _ _ _ ND') BL) as T. split; [intros u' m'|split; [intros l'|split]]; split; try (intros Q; discriminate Q); try (intros Q; now destruct (NT _ Q)); try (intros (_ & Q & Q2); tauto).
        -- intros [= <-]. exact (conj NT (conj NSP (proj1 (TK _) T))).
        -- intros (_ & _ & T2). apply TK in T2. apply bind_takes in T2; auto. congruence.
        -- intros (_ & _ & Q). destruct (Q l). now apply TK.
      * assert (NL : forall l, ~ takes legacy_form args (as_pulse kw) l) by (intros l T2; apply TK in T2; apply bind_takes in T2; auto; congruence).
        split; [intros u' m'|split; [intros l'|split]]; split; try (intros Q; discriminate Q); try (intros Q; now destruct (NT _ Q)); try (intros (_ & Q & Q2); tauto).
        -- intros (_ & _ & T2). destruct (NL _ T2).
        -- intros _. exact (conj NT (conj NSP NL)).
Qed.
End Args.
Print Assumptions C60_arguments.

(** ** URIs *)
Section Uri.
Variable bracket_ok : str -> bool.
Lemma filter_option : forall o, without ["="; "&"; ";"; "?"; "#"]%char (fst o) -> without ["&"; ";"; "?"; "#"]%char (snd o) -> filter nb (option_text o) = option_text o.
Proof.
  intros o H1 H2. unfold option_text. rewrite filter_app. cbn [filter]. change (nb "=") with true. cbn iota. now rewrite (filter_nb _ _ H1), (filter_nb _ _ H2).
Qed.
Lemma filter_more : forall more, (forall o, In o (map snd more) -> without ["="; "&"; ";"; "?"; "#"]%char (fst o) /\ without ["&"; ";"; "?"; "#"]%char (snd o)) ->
  (forall c, In c (map fst more) -> In c ["&"; ";"; "?"]%char) -> filter nb (more_text more) = more_text more.
Proof.
  induction more as [|[c o] more IH]; intros HO HC; auto. cbn [more_text filter]. assert (E : nb c = true) by (destruct (HC c (or_introl eq_refl)) as [<-|[<-|[<-|[]]]]; reflexivity). rewrite E. f_equal. rewrite filter_app.
  rewrite filter_option by (apply (HO o (or_introl eq_refl))). f_equal. apply IH; intros; [apply HO|apply HC]; right; auto.
Qed.
Lemma query_no_hash : forall first more, (forall o, In o (first :: map snd more) -> without ["="; "&"; ";"; "?"; "#"]%char (fst o) /\ without ["&"; ";"; "?"; "#"]%char (snd o)) ->
  (forall c, In c (map fst more) -> In c ["&"; ";"; "?"]%char) -> forall c, In c (option_text first ++ more_text more) -> eqc "#" c = false.
Proof.
  intros first more HO HC c I.
  assert (X : forall o, In o (first :: map snd more) -> In c (option_text o) -> eqc "#" c = false).
  { intros o IO Q. destruct (HO o IO) as [H1 H2]. unfold option_text in Q. apply in_app_or in Q. destruct Q as [Q|[<-|Q]]; [apply (without_not _ _ _ _ H1)|reflexivity|apply (without_not _ _ _ _ H2)]; auto; cbn; tauto. }
  apply in_app_or in I. destruct I as [I|I]; [apply (X first); auto; left; auto|].
  assert (HO' : forall o, In o (map snd more) -> In c (option_text o) -> eqc "#" c = false) by (intros; eapply X; eauto; right; auto). clear HO X.
  induction more as [|[d o] more IH]; [destruct I|]. cbn [more_text] in I. destruct I as [<-|I]; [destruct (HC d (or_introl eq_refl)) as [<-|[<-|[<-|[]]]]; reflexivity|].
  apply in_app_or in I. destruct I as [I|I]; [apply (HO' o); auto; left; auto|]. apply IH; auto; intros; [apply HC|eapply HO'; eauto]; right; auto.
Qed.
Lemma split_options : forall more first, (forall o, In o (first :: map snd more) -> without ["="; "&"; ";"; "?"; "#"]%char (fst o) /\ without ["&"; ";"; "?"; "#"]%char (snd o)) ->
  (forall c, In c (map fst more) -> In c ["&"; ";"; "?"]%char) -> split_any separator (option_text first ++ more_text more) = map option_text (first :: map snd more).
Proof.
  assert (NS : forall o, without ["="; "&"; ";"; "?"; "#"]%char (fst o) -> without ["&"; ";"; "?"; "#"]%char (snd o) -> forall c, In c (option_text o) -> separator c = false).
  { intros o H1 H2 c I. unfold separator. apply existsb_eqc_false. intros Q. unfold option_text in I. apply in_app_or in I.
    destruct I as [I|[<-|I]]; [apply (H1 c I)|repeat (destruct Q as [Q|Q]; [discriminate|]); destruct Q|apply (H2 c I)]; apply in_or_app; right; cbn in Q |- *; tauto. }
  induction more as [|[c o] more IH]; intros first HO HC; destruct (HO first (or_introl eq_refl)) as [H1 H2].
  - cbn [more_text map]. rewrite app_nil_r. apply split_any_none. now apply NS.
  - cbn [more_text map snd]. rewrite split_any_some.
    + f_equal. rewrite IH; [reflexivity| |]; intros; [apply HO|apply HC]; right; auto.
    + now apply NS.
    + destruct (HC c (or_introl eq_refl)) as [<-|[<-|[<-|[]]]]; reflexivity.
Qed.
Lemma option_back : forall o, without ["="; "&"; ";"; "?"; "#"]%char (fst o) -> option_of (option_text o) = o.
Proof.
  intros [n v] H. unfold option_of, option_text. cbn [fst snd] in *. rewrite cut_some; [reflexivity| |reflexivity]. intros c I. eapply without_not; eauto. left. auto.
Qed.
(** C60: what is understood of a URI of the documented form: the backend, in small letters, and for every option the last value. *)
Theorem C60_uri : forall backend opts uri, imas_uri backend opts uri ->
  exists b query, backend_of bracket_ok uri = Ok b /\ Forall2 small backend b /\ (exists p, urlparse bracket_ok uri = Ok (p, query)) /\
  forall n v, alookup n (querydict query) = Some v <-> last_value opts n v.
Proof.
  intros backend opts uri U. destruct U as [host first more frag HB HH HO HC].
  set (q := option_text first ++ more_text more). set (fr := match frag with Some f => "#"%char :: f | None => [] end).
  set (hp := match host with Some h => strs "//" ++ h ++ strs "/" | None => [] end).
  assert (QH : forall c, In c q -> eqc "#" c = false) by (apply query_no_hash; auto).
  assert (FQ : filter nb q = q). { unfold q. rewrite filter_app, filter_option by (apply (HO first); left; auto). rewrite filter_more; auto. intros o I. apply HO. right. auto. }
  assert (FH : filter nb hp = hp). { unfold hp. destruct host as [h|]; auto. rewrite !filter_app. rewrite (filter_nb _ _ (HH h eq_refl)). reflexivity. }
  assert (FF : exists fr', filter nb fr = fr' /\ (fr' = [] \/ exists f, fr' = "#"%char :: f)). { unfold fr. destruct frag as [f|]; [|exists []; auto]. eexists. split; [reflexivity|]. right. cbn [filter]. change (nb "#") with true. eauto. }
  destruct FF as (fr' & FF & FC).
  assert (P : urlparse bracket_ok (strs "imas:" ++ hp ++ backend ++ "?"%char :: option_text first ++ more_text more ++ fr) = Ok (match host with Some _ => "/"%char :: backend | None => backend end, q)).
  { unfold urlparse. change (strs "imas:" ++ ?x) with ("i"%char :: "m"%char :: "a"%char :: "s"%char :: ":"%char :: x). cbn [dropwhile]. change (code "i" <=? 32)%N with false. cbn iota.
    fold nb. rewrite (app_assoc (option_text first)). fold q. set (tl := hp ++ backend ++ "?"%char :: q ++ fr).
    assert (FT : filter nb ("i"%char :: "m"%char :: "a"%char :: "s"%char :: ":"%char :: tl) = "i"%char :: "m"%char :: "a"%char :: "s"%char :: ":"%char :: hp ++ backend ++ "?"%char :: q ++ fr').
    { unfold tl. cbn [filter]. change (nb "i") with true. change (nb "m") with true. change (nb "a") with true. change (nb "s") with true. change (nb ":") with true. cbn iota. rewrite !filter_app, FH, (filter_nb _ _ HB).
      cbn [filter]. change (nb "?") with true. cbn iota. rewrite filter_app, FQ, FF. reflexivity. }
    change (filter (fun c : ascii => negb (existsb (eqc c) ["009"%char; "010"%char; "013"%char]))) with (filter nb). rewrite FT. clear tl FT.
    set (t2 := hp ++ backend ++ "?"%char :: q ++ fr').
    assert (CUT : cut_at (eqc ":") ("i"%char :: "m"%char :: "a"%char :: "s"%char :: ":"%char :: t2) = (["i"; "m"; "a"; "s"]%char, Some t2)) by reflexivity.
    rewrite CUT. change (is_alpha "i" && forallb scheme_char ["i"; "m"; "a"; "s"]%char) with true. cbn iota. change (map lower_chr ["i"; "m"; "a"; "s"]%char) with (strs "imas").
    assert (NET : (if starts (strs "//") t2 then let (netloc, rest) := until (fun c => existsb (eqc c) ["/"; "?"; "#"]%char) (skipn 2 t2) in
        let l := existsb (eqc "[") netloc in let r := existsb (eqc "]") netloc in if xorb l r then Err BadUri else if l && negb (bracket_ok netloc) then Err BadUri else Ok rest else Ok t2)
      = Ok (match host with Some _ => "/"%char :: backend | None => backend end ++ "?"%char :: q ++ fr')).
    { unfold t2, hp. destruct host as [h|].
      - change ((strs "//" ++ h ++ strs "/") ++ ?x) with ("/"%char :: "/"%char :: (h ++ strs "/") ++ x). change (starts (strs "//") ("/"%char :: "/"%char :: ?x)) with true. cbn iota. cbn [skipn]. rewrite <- app_assoc. change (strs "/" ++ ?x) with ("/"%char :: x).
        rewrite until_some; [|intros c I; apply existsb_eqc_false; intros Q; apply (HH h eq_refl c I); apply in_or_app; right; cbn in Q |- *; tauto|reflexivity].
        assert (B1 : forall x, In x ["["; "]"]%char -> existsb (eqc x) h = false). { intros x X. destruct (existsb (eqc x) h) eqn:E; auto. apply existsb_eqc in E. exfalso. apply (HH h eq_refl x E). apply in_or_app. right. cbn in X |- *. tauto. }
        cbv zeta. rewrite !B1 by (cbn; tauto). reflexivity.
      - cbn [app]. assert (S : starts (strs "//") (backend ++ "?"%char :: q ++ fr') = false); [|rewrite S; reflexivity].
        destruct backend as [|c b]; [reflexivity|]. assert (NE : Ascii.eqb "/" c = false) by (apply Ascii.eqb_neq; intros <-; apply (HB "/"%char (or_introl eq_refl)); apply in_or_app; right; cbn; tauto).
        unfold starts. cbn [app length strs list_ascii_of_string firstn str_eqb]. unfold ascii_eqb. rewrite ?NE. cbn. rewrite ?NE. reflexivity. }
    cbv zeta in NET. rewrite NET. cbn [rbind]. clear NET CUT. set (pth := match host with Some _ => "/"%char :: backend | None => backend end).
    assert (PX : forall x, In x ["?"; "#"]%char -> forall c, In c pth -> eqc x c = false).
    { intros x X c I. assert (Ic : In c backend \/ c = "/"%char) by (unfold pth in I; destruct host; [destruct I as [<-|I]|]; auto). destruct Ic as [Ic| ->]; [|destruct X as [<-|[<-|[]]]; reflexivity]. eapply without_not; eauto. cbn in X |- *. tauto. }
    assert (H1 : fst (cut_at (eqc "#") (pth ++ "?"%char :: q ++ fr')) = pth ++ "?"%char :: q).
    { assert (NH : forall c, In c (pth ++ "?"%char :: q) -> eqc "#" c = false) by (intros c I; apply in_app_or in I; destruct I as [I|[<-|I]]; [apply PX; auto; cbn; tauto|reflexivity|auto]).
      change (pth ++ "?"%char :: q ++ fr') with (pth ++ ("?"%char :: q) ++ fr'). rewrite app_assoc. destruct FC as [->|(f & ->)]; [rewrite app_nil_r, cut_none; auto|rewrite cut_some; auto]. }
    rewrite H1. rewrite cut_some; [|apply PX; cbn; tauto|reflexivity]. reflexivity. }
  eexists. exists q. split; [unfold backend_of; rewrite P; cbn [rbind fst]; reflexivity|]. split; [|split; [eexists; exact P|]].
  - assert (E : dropwhile (eqc "/") (map lower_chr (match host with Some _ => "/"%char :: backend | None => backend end)) = map lower_chr backend).
    { assert (D : dropwhile (eqc "/") (map lower_chr backend) = map lower_chr backend).
      { apply dropwhile_none. intros c I. apply List.in_map_iff in I. destruct I as (d & <- & I). apply eqc_false. intros E. apply (HB d I). apply in_or_app. right. assert (d = "/"%char); [|subst; cbn; tauto].
        destruct (lower_small d) as [(i & Li & Ed & El)|(_ & El)]; [|congruence]. rewrite El in E. apply (f_equal N_of_ascii) in E. rewrite N_ascii_embedding in E by lia. change (N_of_ascii "/") with 47%N in E. lia. }
      destruct host; [change (map lower_chr ("/"%char :: backend)) with ("/"%char :: map lower_chr backend); cbn [dropwhile]; change (eqc "/" "/") with true; cbn iota|]; exact D. }
    rewrite E. clear. induction backend as [|c b IH]; cbn [map]; constructor; auto. apply lower_small.
  - intros n v. unfold querydict, q. rewrite split_options by auto. set (os := first :: map snd more) in *.
    assert (F : forall d, fold_left (fun d o => aset (fst (option_of o)) (snd (option_of o)) d) (map option_text os) d = fold_left (fun d (o : str * str) => aset (fst o) (snd o) d) os d).
    { assert (HO' : forall o, In o os -> without ["="; "&"; ";"; "?"; "#"]%char (fst o)) by (intros o I; apply HO; auto). clear - HO'. induction os as [|o os IH]; intros d; cbn [map fold_left]; auto. rewrite option_back by (apply HO'; left; auto). apply IH. intros; apply HO'; right; auto. }
    rewrite F, fold_last. split; [intros [H|(_ & H)]; auto; discriminate|auto].
Qed.
End Uri.
Print Assumptions C60_uri.
