(** The fields of a definition in document order, and the metadata as seen by the other models. *)
From Verif Require Import Base DataTypeModel PathModel PathSpec PathProofs3 TreeModel TreeSpec ConvSpec ConvProofs3 ValModel VmapModel VmapSpec VmapProofs EndSpec EndProofs2.
From Verif Require Import MetaModel MetaSpec MetaProofs MetaProofs2 MetaProofs3.
From Verif Require NcEntryModel.

Definition nm (y : xml) : str := match attr "name" y with Some n => n | None => [] end.
Fixpoint walk (x : xml) (p : list str) : list (list str * xml) :=
  match x with Xml _ _ cs => (fix go l := match l with [] => [] | c :: r => (p ++ [nm c], c) :: walk c (p ++ [nm c]) ++ go r end) cs end.
Definition walks (cs : list xml) (p : list str) : list (list str * xml) := flat_map (fun c => (p ++ [nm c], c) :: walk c (p ++ [nm c])) cs.
Lemma walk_eq : forall x p, walk x p = walks (xchildren x) p.
Proof. intros [t a cs] p. cbn [walk xchildren]. unfold walks. induction cs as [|c cs IH]; [reflexivity|]. cbn [flat_map]. rewrite <- IH. reflexivity. Qed.
Lemma desc_eq : forall x, descendants x = flat_map (fun c => c :: descendants c) (xchildren x).
Proof. intros [t a cs]. cbn [descendants xchildren]. induction cs as [|c cs IH]; [reflexivity|]. cbn [flat_map]. rewrite <- IH. reflexivity. Qed.
Lemma walk_desc : forall x p, map snd (walk x p) = descendants x.
Proof.
  induction x as [t a cs IH] using xml_ind'. intros p. rewrite walk_eq, desc_eq. cbn [xchildren]. unfold walks. induction cs as [|c cs IHc]; cbn [flat_map map]; auto.
  rewrite map_app. cbn [map snd app]. rewrite (IH c (or_introl eq_refl)), IHc; [reflexivity|]. intros c' I. apply IH. right. assumption.
Qed.
Lemma walk_in : forall x p q y, (forall z, part_of x z -> exists n, attr "name" z = Some n) -> (In (q, y) (walk x p) <-> exists r, r <> [] /\ q = p ++ r /\ elem_at x r y).
Proof.
  induction x as [t a cs IH] using xml_ind'. intros p q y NM. rewrite walk_eq. cbn [xchildren]. unfold walks. rewrite in_flat_map. split.
  - intros (c & I & J). assert (NC : exists n, attr "name" c = Some n) by (apply NM; econstructor; [exact I|constructor]). destruct NC as (n & NC).
    assert (EN : nm c = n) by (unfold nm; rewrite NC; reflexivity). rewrite EN in J. destruct J as [J|J].
    + injection J as <- <-. exists [n]. split; [discriminate|]. split; [reflexivity|]. econstructor; [exact I|assumption|constructor].
    + apply IH in J; auto. 2:{ intros z Z. apply NM. econstructor; eauto. } destruct J as (r & NR & -> & E). exists (n :: r). split; [discriminate|].
      split; [rewrite <- app_assoc; reflexivity|]. econstructor; eauto.
  - intros (r & NR & -> & E). inversion E as [|? c n r' ? I N E']; subst; [contradiction|]. exists c. split; [exact I|].
    assert (EN : nm c = n) by (unfold nm; rewrite N; reflexivity). rewrite EN. destruct r' as [|m r'].
    + inversion E'; subst. left. reflexivity.
    + right. apply IH; auto. { intros z Z. apply NM. econstructor; eauto. } exists (m :: r'). split; [discriminate|]. split; [rewrite <- app_assoc; reflexivity|assumption].
Qed.
Lemma walk_prefix : forall x p q y, In (q, y) (walk x p) -> exists r, r <> [] /\ q = p ++ r.
Proof.
  induction x as [t a cs IH] using xml_ind'. intros p q y. rewrite walk_eq. cbn [xchildren]. unfold walks. rewrite in_flat_map. intros (c & I & [J|J]).
  - injection J as <- <-. exists [nm c]. split; [discriminate|reflexivity].
  - apply IH in J; auto. destruct J as (r & N & ->). exists (nm c :: r). split; [discriminate|]. rewrite <- app_assoc. reflexivity.
Qed.
Lemma nodup_app : forall {A} (l r : list A), NoDup l -> NoDup r -> (forall a, In a l -> In a r -> False) -> NoDup (l ++ r).
Proof.
  induction l as [|a l IH]; intros r N M H; cbn; auto. inversion N; subst. constructor.
  - rewrite in_app_iff. intros [I|I]; [contradiction|]. apply (H a); [left; reflexivity|assumption].
  - apply IH; auto. intros b I J. apply (H b); [right; assumption|assumption].
Qed.
Lemma walk_nodup : forall x p, distinct_names x -> (forall z, part_of x z -> exists n, attr "name" z = Some n) -> NoDup (map fst (walk x p)).
Proof.
  induction x as [t a cs IH] using xml_ind'. intros p D NM. rewrite walk_eq. cbn [xchildren]. assert (ND := D _ (part_here _)). cbn [xchildren] in ND.
  assert (DC : forall c, In c cs -> distinct_names c) by (intros c I; eapply distinct_child; eauto).
  assert (NC : forall c, In c cs -> forall z, part_of c z -> exists n, attr "name" z = Some n) by (intros c I z Z; apply NM; econstructor; eauto). clear D NM.
  unfold walks. induction cs as [|c cs IHc]; cbn [flat_map map]; [constructor|]. inversion ND as [|? ? NI ND']; subst. rewrite map_app. apply nodup_app.
  - cbn [map fst]. constructor.
    + rewrite in_map_iff. intros ((q & y) & E & I). cbn in E. subst q. apply walk_prefix in I. destruct I as (r & N & E). rewrite <- (app_nil_r (p ++ [nm c])) in E at 1.
      apply app_inv_head in E. congruence.
    + apply IH; [left; reflexivity|apply DC; left; reflexivity|apply NC; left; reflexivity].
  - apply IHc; auto.
    + intros c' I. apply IH. right. assumption.
    + intros c' I. apply DC. right. assumption.
    + intros c' I. apply NC. right. assumption.
  - assert (PF : forall c' q, In q (map fst ((p ++ [nm c'], c') :: walk c' (p ++ [nm c']))) -> exists r, q = p ++ nm c' :: r).
    { intros c' q I. apply in_map_iff in I. destruct I as ((q' & y) & E & I). cbn in E. subst q'. destruct I as [I|I].
      - injection I as <- <-. exists []. reflexivity.
      - apply walk_prefix in I. destruct I as (r & _ & ->). exists r. rewrite <- app_assoc. reflexivity. }
    intros q I J. apply PF in I. destruct I as (r & ->). apply in_map_iff in J. destruct J as ((q' & y) & E & J). cbn in E. subst q'.
    apply in_flat_map in J. destruct J as (c' & I' & J). destruct (PF c' (p ++ nm c :: r)) as (r' & E'); [apply in_map_iff; exists (p ++ nm c :: r, y); auto|].
    apply app_inv_head in E'. injection E' as E' _. apply NI. destruct (NC c (or_introl eq_refl) c (part_here _)) as (n & N1). destruct (NC c' (or_intror I') c' (part_here _)) as (n' & N2).
    assert (EN : nm c = n /\ nm c' = n') by (unfold nm; rewrite N1, N2; auto). destruct EN as (EN & EN').
    replace (attr "name" c) with (attr "name" c') by congruence. apply List.in_map. assumption.
Qed.
Lemma app_pick : forall {A} (l1 l2 r1 r2 : list A) e, l1 ++ l2 = r1 ++ e :: r2 ->
  (exists l', l1 = r1 ++ e :: l') \/ (exists l', r1 = l1 ++ l' /\ l2 = l' ++ e :: r2).
Proof.
  induction l1 as [|a l1 IH]; intros l2 r1 r2 e E; [right; exists r1; auto|]. destruct r1 as [|b r1]; cbn in E; injection E as -> E.
  - left. exists l1. reflexivity.
  - destruct (IH _ _ _ _ E) as [(l' & ->)|(l' & -> & ->)]; [left; exists l'|right; exists l']; auto.
Qed.
(** the elements around an element come before it *)
Lemma walk_parents : forall x p w1 q y w2, walk x p = w1 ++ (q, y) :: w2 -> forall a b, q = p ++ a ++ b -> a <> [] -> b <> [] -> exists z, In (p ++ a, z) w1.
Proof.
  induction x as [t at_ cs IH] using xml_ind'. intros p w1 q y w2 E a b EQ NA NB. rewrite walk_eq in E. cbn [xchildren] in E. unfold walks in E. revert w1 E.
  induction cs as [|c cs IHc]; intros w1 E; cbn [flat_map] in E; [destruct w1; discriminate|].
  change (((p ++ [nm c], c) :: walk c (p ++ [nm c])) ++ flat_map (fun c => (p ++ [nm c], c) :: walk c (p ++ [nm c])) cs) with
    ((p ++ [nm c], c) :: (walk c (p ++ [nm c]) ++ flat_map (fun c => (p ++ [nm c], c) :: walk c (p ++ [nm c])) cs)) in E.
  destruct w1 as [|e w1]; cbn [app] in E; [injection E as E0 _ _|injection E as E0 E].
  - exfalso. rewrite EQ in E0. apply app_inv_head in E0. destruct a as [|u [|v a]]; [contradiction| |discriminate]. destruct b; [contradiction|discriminate].
  - destruct (app_pick _ _ _ _ _ E) as [(l' & E1)|(l' & -> & E1)].
    + assert (W : In (q, y) (walk c (p ++ [nm c]))) by (rewrite E1; apply in_or_app; right; left; reflexivity).
      destruct (walk_prefix _ _ _ _ W) as (r & NR & ER). rewrite EQ, <- app_assoc in ER. apply app_inv_head in ER. destruct a as [|u a]; [contradiction|]. cbn in ER. injection ER as EU ER. subst u.
      destruct a as [|v a]; [exists c; left; congruence|].
      destruct (IH c (or_introl eq_refl) _ _ _ _ _ E1 (v :: a) b) as (z & IZ); auto; [rewrite EQ, <- app_assoc; reflexivity|discriminate|].
      exists z. right. rewrite <- app_assoc in IZ. exact IZ.
    + destruct (IHc (fun c' I => IH c' (or_intror I)) _ E1) as (z & IZ). exists z. right. apply in_or_app. right. assumption.
Qed.

(** ** A definition of the data dictionary *)
Section Def.
Variable version : str -> option Z.
Variable x : xml.
Hypothesis DF : definition x.
Variable t : mtree.
Hypothesis B : toplevel_metadata x = Ok t.

Lemma def_usable : forall y, part_of x y -> usable y.
Proof. apply (build_usable _ _ _ _ B). Qed.
Lemma def_named : forall p y, elem_at x p y -> Forall is_name p.
Proof. apply (df_names _ DF). Qed.
Lemma def_ne : forall p y, elem_at x p y -> ~ In [] p.
Proof. intros p y E I. assert (F := def_named _ _ E). rewrite Forall_forall in F. apply F in I. exact (name_nonnil _ I eq_refl). Qed.
Lemma all_fields : fields_of version x = map (fun qy => elem_of version (xattrib (snd qy))) (walk x []).
Proof.
  unfold fields_of. rewrite <- (walk_desc x []). rewrite <- (map_map snd (fun y => elem_of version (xattrib y))). f_equal.
  assert (H : forall q y, In (q, y) (walk x []) -> xtag y = strs "field").
  { intros q y I. apply walk_in in I; [|apply (df_named _ DF)]. destruct I as (r & NR & -> & E). apply (df_tag _ DF r); auto. }
  induction (walk x []) as [|[q y] w IH]; cbn [map filter]; auto. cbn [snd]. rewrite (H q y (or_introl eq_refl)), str_eqb_refl. f_equal. apply IH. intros q' y' I. apply (H q'). right. assumption.
Qed.
Lemma elem_path : forall p y, elem_at x p y -> p <> [] -> e_path (elem_of version (xattrib y)) = slashed p.
Proof. intros p y E N. cbn [elem_of e_path]. unfold att_or, att. change (alookup (strs "path") (xattrib y)) with (attr "path" y). rewrite (df_path _ DF _ _ E N). reflexivity. Qed.
Lemma walk_x : forall q y, In (q, y) (walk x []) <-> q <> [] /\ elem_at x q y.
Proof.
  intros q y. rewrite walk_in by apply (df_named _ DF). split; [intros (r & N & -> & E); auto|]. intros (N & E). exists q. auto.
Qed.
Lemma field_iff : forall e, In e (fields_of version x) <-> exists p y, p <> [] /\ elem_at x p y /\ e = elem_of version (xattrib y).
Proof.
  intros e. rewrite all_fields, in_map_iff. split.
  - intros ((q & y) & <- & I). apply walk_x in I. destruct I. exists q, y. auto.
  - intros (p & y & N & E & ->). exists (p, y). split; auto. apply walk_x. auto.
Qed.
Lemma no_none : forall s r, dt_parse (Some s) = Ok r -> fst r <> None.
Proof.
  intros s r T. cbn -[strs split_on upper] in T. destruct (str_eqb s (strs "structure")); [destruct (dtype_of_value s); inversion T; discriminate|].
  destruct (str_eqb s (strs "struct_array")); [destruct (dtype_of_value s); inversion T; discriminate|]. destruct (split_on "_"%char (upper s)) as [|d [|r0 rt]]; try discriminate.
  destruct (str_eqb r0 (strs "TYPE") && match rt with [] => true | _ => false end); [destruct (dtype_of_value d); inversion T; discriminate|]. destruct r0; [discriminate|].
  destruct (is_digit a); [destruct (dtype_of_value d); inversion T; discriminate|discriminate].
Qed.
Lemma parent_type : forall p q y, elem_at x (p ++ q) y -> p <> [] -> q <> [] -> exists z, elem_at x p z /\ is_structure (elem_of version (xattrib z)) = true.
Proof.
  intros p q y E NP NQ. destruct (elem_split _ _ _ _ E) as (z & EZ & EY). exists z. split; auto.
  assert (CH : xchildren z <> []). { inversion EY; subst; [contradiction|]. match goal with I : In _ (xchildren z) |- _ => intros X; rewrite X in I; destruct I end. }
  assert (P := elem_part _ _ _ EZ). destruct (us_type _ (def_usable _ P)) as (ty & n & T & _). assert (NT := df_type _ DF _ _ EZ NP). destruct ty as [ty|].
  2:{ exfalso. destruct (attr "data_type" z) as [s|]; [|congruence]. exact (no_none _ _ T eq_refl). }
  destruct (parse_structure _ _ _ T) as (S1 & S2). unfold is_structure, is_type. cbn [elem_of e_type]. change (att "data_type" (xattrib z)) with (attr "data_type" z).
  assert (C : ty = T_STRUCTURE \/ ty = T_STRUCT_ARRAY).
  { assert (L := df_leaf _ DF _ _ _ P T). destruct ty; auto; exfalso; apply CH, L; discriminate. }
  destruct C as [C|C]; [apply S1 in C|apply S2 in C]; rewrite C, str_eqb_refl; [reflexivity|]. apply orb_true_r.
Qed.
Lemma slashed_cut : forall q p0 r, Forall is_name q -> slashed q = p0 ++ slash :: r -> exists a b, q = a ++ b /\ a <> [] /\ b <> [] /\ p0 = slashed a.
Proof.
  induction q as [|n q IH]; intros p0 r F E; [destruct p0; discriminate|]. inversion F as [|? ? FN FQ]; subst. destruct q as [|m q].
  - exfalso. apply (name_no_slash n FN). cbn in E. rewrite E. apply in_or_app. right. left. reflexivity.
  - change (slashed (n :: m :: q)) with (n ++ slash :: slashed (m :: q)) in E. apply app_eq_app in E. destruct E as (l & [(-> & E)|(-> & E)]).
    + destruct l as [|c l]; cbn in E; [|injection E as E0 E1].
      * rewrite app_nil_r in *. exists [p0], (m :: q). repeat split; try discriminate.
      * exfalso. subst c. apply (name_no_slash _ FN). apply in_or_app. right. left. reflexivity.
    + destruct l as [|c l]; cbn in E; [|injection E as E0 E1].
      * rewrite app_nil_r. exists [n], (m :: q). repeat split; try discriminate.
      * subst c. destruct (IH l r FQ E1) as (a & b & E2 & NA & NB & ->). exists (n :: a), b. rewrite E2. repeat split; auto; [discriminate|].
        destruct a; [contradiction|reflexivity].
Qed.
Lemma def_wf_fields : wf_fields (fields_of version x).
Proof.
  constructor.
  - rewrite all_fields, map_map. rewrite (map_ext_in _ (fun qy => slashed (fst qy))).
    2:{ intros (q & y) I. apply walk_x in I. destruct I as (N & E). cbn [snd fst]. apply elem_path; auto. }
    assert (N := walk_nodup x [] (df_distinct _ DF) (df_named _ DF)). assert (F : forall q y, In (q, y) (walk x []) -> Forall is_name q) by (intros q y I; apply walk_x in I; destruct I as (_ & E); exact (def_named _ _ E)).
    induction (walk x []) as [|[q y] w IH]; cbn [map]; [constructor|]. cbn [map fst] in N. inversion N as [|? ? NI N']; subst. constructor.
    + rewrite in_map_iff. intros ((q' & y') & E & I). cbn [fst] in E. apply slashed_inj in E; [|apply (F q' y'); right; assumption|apply (F q y); left; reflexivity]. subst q'.
      apply NI. apply in_map_iff. exists (q, y'). auto.
    + apply IH; auto. intros q' y' I. apply (F q' y'). right. assumption.
  - intros e I E. apply field_iff in I. destruct I as (p & y & N & EA & ->). rewrite (elem_path _ _ EA N) in E. exact (slashed_ne p N (def_ne _ _ EA) E).
  - intros f1 e f2 E p0 (r & EP). rewrite all_fields in E. destruct (map_eq_app _ _ _ _ E) as (w1 & w2 & EW & <- & E2). destruct w2 as [|[q y] w2]; [discriminate|]. cbn [map] in E2. injection E2 as <- <-.
    assert (I : In (q, y) (walk x [])) by (rewrite EW; apply in_or_app; right; left; reflexivity). apply walk_x in I. destruct I as (N & EA). cbn [snd] in EP.
    rewrite (elem_path _ _ EA N) in EP. destruct (slashed_cut q p0 r (def_named _ _ EA) EP) as (a & b & EQ & NA & NB & ->). subst q.
    destruct (walk_parents _ _ _ _ _ _ EW a b eq_refl NA NB) as (z & IZ). destruct (parent_type _ _ _ EA NA NB) as (z' & EZ' & ST).
    assert (EZ : elem_at x a z). { cbn [app] in IZ. assert (J : In (a, z) (walk x [])) by (rewrite EW; apply in_or_app; left; assumption). apply walk_x in J. tauto. }
    rewrite (elem_fun _ _ _ _ (df_distinct _ DF) EZ' EZ) in ST.
    exists (elem_of version (xattrib z)). split; [|split; [apply elem_path; auto|assumption]]. apply in_map_iff. exists (a, z). auto.
Qed.

(** ** The metadata tree *)
Lemma erase_eq : forall u, erase u = Meta (x_name (tinfo u)) (kind_of (x_dtype (tinfo u)) (x_ndim (tinfo u))) (map (fun kc => erase (snd kc)) (tchildren u)).
Proof. intros [i cs]. cbn [erase tinfo tchildren]. f_equal. induction cs as [|[k c] cs IH]; cbn; [reflexivity|]. rewrite IH. reflexivity. Qed.
Lemma erase_name : forall u, mname (erase u) = x_name (tinfo u).
Proof. intros u. rewrite erase_eq. reflexivity. Qed.
Lemma child_names : forall y cp par u, build y cp par = Ok u -> NoDup (map (attr "name") (xchildren y)) ->
  (forall k c, In (k, c) (tchildren u) -> k = x_name (tinfo c)) /\ NoDup (akeys (tchildren u)).
Proof.
  intros y cp par u E N. assert (F := build_children _ _ _ _ E N). split.
  - intros k c I. clear -F I. induction F as [|z [k' c'] cs d (EN & EB) F IH]; [destruct I|]. destruct I as [I|I]; auto. injection I as -> ->. cbn in *.
    apply build_name in EB. congruence.
  - assert (K := F2_keys (fun c v => build c (child_ctx (tinfo u)) (Some (tinfo u)) = Ok v) _ _ F). rewrite K in N. apply NoDup_map_inv in N. exact N.
Qed.
Lemma at_descend : forall p y cp par u m', distinct_names y -> build y cp par = Ok u -> (at_path (erase u) p m' <-> exists m, descend u p = Some m /\ m' = erase m).
Proof.
  induction p as [|n p IH]; intros y cp par u m' D BU.
  - split; [intros A; inversion A; subst; exists u; auto|]. intros (m & E & ->). injection E as <-. constructor.
  - assert (ND : NoDup (map (attr "name") (xchildren y))) by (apply D; constructor). assert (F := build_children _ _ _ _ BU ND). destruct (child_names _ _ _ _ BU ND) as (KN & NK). split.
    + intros A. inversion A as [|? c ? ? I A']; subst. rewrite erase_eq in I. cbn [mchildren] in I. apply in_map_iff in I. destruct I as ((k & v) & <- & I). cbn [snd] in *.
      rewrite erase_name. rewrite <- (KN _ _ I). cbn [descend]. rewrite (alookup_NoDup_In _ _ _ NK I).
      destruct (F2_lookup (fun c v => build c (child_ctx (tinfo u)) (Some (tinfo u)) = Ok v) _ _ F _ _ (alookup_NoDup_In _ _ _ NK I)) as (c & IC & _ & BC).
      apply (IH c _ _ v m' (distinct_child _ _ D IC) BC). assumption.
    + intros (m & E & ->). cbn [descend] in E. destruct (alookup n (tchildren u)) as [v|] eqn:L; [|discriminate].
      destruct (F2_lookup (fun c v => build c (child_ctx (tinfo u)) (Some (tinfo u)) = Ok v) _ _ F _ _ L) as (c & IC & _ & BC). apply alookup_In in L.
      rewrite (KN _ _ L), <- erase_name. constructor; [rewrite (erase_eq u); cbn [mchildren]; apply in_map_iff; exists (n, v); auto|].
      apply (IH c _ _ v _ (distinct_child _ _ D IC) BC). eauto.
Qed.

Lemma kind_type : forall ty n, known_type (Some ty) n -> type_of (kind_of (Some ty) n) = (Some ty, n).
Proof.
  intros ty n K. unfold known_type in K. destruct ty; cbn; try (rewrite Nnat.N2Nat.id; reflexivity).
  - destruct K as [(X & _)|[(_ & ->)|[(X & _)|[(X & _)|([X|[X|X]] & _)]]]]; try discriminate; reflexivity.
  - destruct K as [(X & _)|[(X & _)|[(_ & ->)|[(X & _)|([X|[X|X]] & _)]]]]; try discriminate; reflexivity.
Qed.
Lemma node_at_def : forall p y, elem_at x p y -> exists m, descend t p = Some m /\ node_is x p y (tinfo m) /\ names_are y m.
Proof.
  intros p y E. destruct (build_inv _ _ _ _ B) as (k & d & I & _). assert (NT := node_top _ _ _ I).
  destruct (build_down x (df_distinct _ DF) def_ne p x y [] t [] None E (elem_here _) B NT) as (m & M). exists m. exact M.
Qed.
Lemma node_back : forall p m, descend t p = Some m -> exists y, elem_at x p y /\ node_is x p y (tinfo m).
Proof.
  intros p m E. destruct (descend_up p x t m [] None (df_distinct _ DF) B E) as (y & EY). exists y. split; auto. destruct (node_at_def _ _ EY) as (m' & E' & N & _). congruence.
Qed.
Lemma def_described : described (erase t) (fields_of version x).
Proof.
  constructor.
  - intros p m' A. apply (at_descend p x [] None t m' (df_distinct _ DF) B) in A. destruct A as (m & E & _). destruct (node_back _ _ E) as (y & EY & _). exact (def_named _ _ EY).
  - intros p m' A N. apply (at_descend p x [] None t m' (df_distinct _ DF) B) in A. destruct A as (m & E & _). destruct (node_back _ _ E) as (y & EY & _).
    exists (elem_of version (xattrib y)). split; [apply field_iff; eauto|]. apply elem_path; auto.
  - intros e I. apply field_iff in I. destruct I as (p & y & N & EY & ->). destruct (node_at_def _ _ EY) as (m & E & NI & _). exists p, (erase m). split; [assumption|].
    split; [apply (at_descend p x [] None t _ (df_distinct _ DF) B); eauto|]. split; [apply elem_path; auto|]. rewrite erase_eq. cbn [mkind elem_of e_type].
    change (att "data_type" (xattrib y)) with (attr "data_type" y). rewrite (ni_type _ _ _ _ NI). f_equal.
    assert (U := def_usable _ (elem_part _ _ _ EY)). destruct (us_type _ U) as (ty & nd & T & KT). assert (NT := df_type _ DF _ _ EY N). rewrite (ni_type _ _ _ _ NI) in T. injection T as T1 T2.
    destruct (x_dtype (tinfo m)) as [ty'|] eqn:ED.
    + rewrite kind_type; [reflexivity|]. rewrite T1, T2. assumption.
    + exfalso. destruct (attr "data_type" y) as [s|] eqn:ES; [|congruence]. assert (X := ni_type _ _ _ _ NI). rewrite ES in X. exact (no_none s _ X ED).
Qed.
Lemma def_wf_meta : wf_meta (erase t) /\ str_ok (erase t) /\ mkind (erase t) = KStruct.
Proof.
  split; [|split].
  - assert (H : forall y, part_of x y -> distinct_names y -> forall cp par u, build y cp par = Ok u -> wf_meta (erase u)).
    { induction y as [tg a cs IH] using xml_ind'. intros P D cp par u BU. rewrite erase_eq. assert (ND : NoDup (map (attr "name") cs)) by (apply (D _ (part_here _))).
      assert (F := build_children _ _ _ _ BU ND). destruct (child_names _ _ _ _ BU ND) as (KN & NK). cbn [xchildren] in F. constructor.
      - rewrite map_map. rewrite (map_ext_in _ fst); [exact NK|]. intros (k & c) I. cbn [snd fst]. rewrite erase_name. symmetry. apply KN. assumption.
      - intros c I. apply in_map_iff in I. destruct I as ((k & v) & <- & I). cbn [snd].
        destruct (F2_lookup (fun c v => build c (child_ctx (tinfo u)) (Some (tinfo u)) = Ok v) _ _ F _ _ (alookup_NoDup_In _ _ _ NK I)) as (c & IC & _ & BC).
        apply (IH c IC (part_trans _ _ _ P (part_in (Xml tg a cs) _ _ IC (part_here _))) (distinct_child (Xml tg a cs) _ D IC) _ _ _ BC).
      - intros dt nd E. destruct (build_inv _ _ _ _ BU) as (k & d & I & _). apply init_inv in I. destruct I as (L & _). assert (T := li_type _ _ _ L).
        assert (C : xchildren (Xml tg a cs) = []).
        { destruct (x_dtype (tinfo u)) as [ty|]; [|discriminate]. apply (df_leaf _ DF _ _ _ P T); intros ->; discriminate. }
        cbn [xchildren] in C. subst cs. inversion F. reflexivity. }
    apply (H x (part_here _) (df_distinct _ DF) _ _ _ B).
  - assert (H : forall y, distinct_names y -> forall cp par u, build y cp par = Ok u -> str_ok (erase u)).
    { induction y as [tg a cs IH] using xml_ind'. intros D cp par u BU. rewrite erase_eq. assert (ND : NoDup (map (attr "name") cs)) by (apply (D _ (part_here _))).
      assert (F := build_children _ _ _ _ BU ND). destruct (child_names _ _ _ _ BU ND) as (KN & NK). cbn [xchildren] in F. constructor.
      - intros nd E. destruct (build_inv _ _ _ _ BU) as (k & d & I & _). apply init_inv in I. destruct I as (L & _). assert (C := li_class _ _ _ L).
        assert (K : known_type (x_dtype (tinfo u)) (x_ndim (tinfo u))) by (apply class_iff; eauto).
        destruct (x_dtype (tinfo u)) as [[]|]; try discriminate. injection E as <-. destruct K as [(X & _)|[(X & _)|[(X & _)|[(_ & K)|([X|[X|X]] & _)]]]]; try discriminate. lia.
      - intros c I. apply in_map_iff in I. destruct I as ((k & v) & <- & I). cbn [snd].
        destruct (F2_lookup (fun c v => build c (child_ctx (tinfo u)) (Some (tinfo u)) = Ok v) _ _ F _ _ (alookup_NoDup_In _ _ _ NK I)) as (c & IC & _ & BC).
        apply (IH c IC (distinct_child (Xml tg a cs) _ D IC) _ _ _ BC). }
    apply (H x (df_distinct _ DF) _ _ _ B).
  - rewrite erase_eq. cbn [mkind]. destruct (build_inv _ _ _ _ B) as (k & d & I & _). apply init_inv in I. destruct I as (L & _). assert (T := li_type _ _ _ L).
    rewrite (df_top _ DF) in T. injection T as <- <-. reflexivity.
Qed.

(** ** The context path of the map *)
Lemma parents_slashed : forall n p, no_slash n -> Forall is_name p -> p <> [] -> iter_parents (slashed (n :: p)) = n :: map (fun s => n ++ slash :: s) (iter_parents (slashed p)).
Proof.
  intros n p N F NP. destruct p as [|m p]; [contradiction|]. change (slashed (n :: m :: p)) with (n ++ slash :: slashed (m :: p)). generalize (slashed (m :: p)). intros s. clear -N.
  induction n as [|c n IH]; [reflexivity|]. cbn [app iter_parents]. rewrite IH by (intros I; apply N; right; assumption).
  destruct (Ascii.eqb c "/"%char) eqn:E; [exfalso; apply Ascii.eqb_eq in E; subst c; apply N; left; reflexivity|]. cbn [map]. rewrite map_map. reflexivity.
Qed.
Definition prefixes (p : list str) (k : nat) : list str := map (fun j => slashed (firstn j p)) (seq 1 k).
Lemma parents_eq : forall p, Forall is_name p -> p <> [] -> iter_parents (slashed p) = prefixes p (length p - 1).
Proof.
  induction p as [|n p IH]; intros F N; [contradiction|]. inversion F as [|? ? FN FP]; subst. destruct p as [|m p].
  - cbn. assert (X : iter_parents n = []); [|exact X]. destruct (iter_parents n) as [|q l] eqn:E; [reflexivity|]. exfalso.
    assert (I : In q (iter_parents n)) by (rewrite E; left; reflexivity). apply iter_parents_spec in I. destruct I as (r & ER). apply (name_no_slash _ FN). rewrite ER. apply in_or_app. right. left. reflexivity.
  - rewrite parents_slashed; auto; [|apply name_no_slash; assumption|discriminate]. rewrite (IH FP) by discriminate. unfold prefixes. cbn [length]. replace (S (S (length p)) - 1) with (S (length p)) by lia.
    replace (S (length p) - 1) with (length p) by lia. change (seq 1 (S (length p))) with (1 :: seq 2 (length p)). cbn [map firstn]. f_equal.
    rewrite <- (seq_shift (length p) 1), !map_map. apply map_ext_in. intros j I. apply in_seq in I. destruct j as [|j]; [lia|]. reflexivity.
Qed.
Lemma skip_slashed : forall a r, a <> [] -> r <> [] -> skipn (S (length (slashed a))) (slashed (a ++ r)) = slashed r.
Proof.
  intros a r NA NR. rewrite EndProofs2.slashed_app by assumption. generalize (slashed a), (slashed r). intros u v. clear. induction u as [|c u IH]; [reflexivity|]. exact IH.
Qed.
Lemma lookup_def : forall p y, elem_at x p y -> p <> [] -> alookup (slashed p) (by_path (fields_of version x)) = Some (elem_of version (xattrib y)).
Proof.
  intros p y E N. apply by_path_lookup; [apply (wf_nodup _ def_wf_fields)|]. split; [apply field_iff; eauto|]. apply elem_path; auto.
Qed.
Lemma array_elem : forall y, is_type "struct_array" (elem_of version (xattrib y)) = true <-> is_array_of_structures y.
Proof.
  intros y. unfold is_type, is_array_of_structures. cbn [elem_of e_type]. change (att "data_type" (xattrib y)) with (attr "data_type" y). destruct (attr "data_type" y) as [s|].
  - rewrite str_eqb_eq. split; congruence.
  - split; discriminate.
Qed.
Lemma ctx_loop : forall p c y, elem_at x p y -> context x p c -> get_ctxpath (slashed p) (by_path (fields_of version x)) = Ok c.
Proof.
  intros p c y E (a & r & EP & NR & -> & A & NB). unfold get_ctxpath. assert (NP : p <> []) by (subst p; destruct a, r; try discriminate; contradiction).
  rewrite (parents_eq p (def_named _ _ E) NP).
  assert (LA : length a <= length p - 1) by (subst p; rewrite app_length; destruct r; [contradiction|cbn; lia]).
  assert (K : forall k, k < length p -> length a <= k -> ctxpath_loop (slashed p) (rev (prefixes p k)) (by_path (fields_of version x)) = Ok (slashed r)).
  { induction k as [|k IHk]; intros LK LA'.
    - destruct a; [|cbn in LA'; lia]. cbn in *. subst p. reflexivity.
    - unfold prefixes. rewrite seq_S, map_app, rev_app_distr. cbn [map rev app ctxpath_loop]. change (1 + k) with (S k).
      assert (EF : exists q, p = firstn (S k) p ++ q /\ q <> []).
      { exists (skipn (S k) p). split; [symmetry; apply firstn_skipn|]. intros X. assert (L := firstn_skipn (S k) p). rewrite X, app_nil_r in L. assert (L2 := firstn_le_length (S k) p).
        assert (L3 := f_equal (@length str) L). rewrite firstn_length in L3. lia. }
      destruct EF as (q & EQ & NQ). assert (E2 := E). rewrite EQ in E2. destruct (elem_split _ _ _ _ E2) as (z & EZ & _).
      assert (NF : firstn (S k) p <> []) by (destruct p; [contradiction|discriminate]). rewrite (lookup_def _ _ EZ NF).
      destruct (Nat.eq_dec (length a) (S k)) as [EL|EL].
      + assert (EA : firstn (S k) p = a) by (subst p; rewrite <- EL, firstn_app, firstn_all, Nat.sub_diag; cbn; apply app_nil_r).
        rewrite EA in *. destruct A as [-> |(z' & EZ' & AZ)]; [contradiction|]. rewrite (elem_fun _ _ _ _ (df_distinct _ DF) EZ EZ').
        rewrite (proj2 (array_elem z') AZ). f_equal. rewrite EP. apply skip_slashed; auto.
      + assert (NA : is_type "struct_array" (elem_of version (xattrib z)) = false).
        { destruct (is_type "struct_array" (elem_of version (xattrib z))) eqn:X; [|reflexivity]. exfalso. apply array_elem in X.
          assert (EA : firstn (S k) p = a ++ firstn (S k - length a) r) by (rewrite EP; rewrite firstn_app, firstn_all2 by lia; reflexivity).
          rewrite EA in EZ. revert X. apply (NB (firstn (S k - length a) r) (skipn (S k - length a) r) z); auto.
          - symmetry. apply firstn_skipn.
          - intros Y. apply (f_equal (@length str)) in Y. rewrite firstn_length in Y. assert (length p = length a + length r) by (subst p; apply app_length). change (length (@nil str)) with 0 in Y. lia.
          - intros Y. apply (f_equal (@length str)) in Y. rewrite skipn_length in Y. assert (length p = length a + length r) by (subst p; apply app_length). change (length (@nil str)) with 0 in Y. lia. }
        rewrite NA. apply IHk; lia. }
  apply K; [|assumption]. destruct p; [contradiction|cbn; lia].
Qed.
End Def.
