(** When metadata can be built; its view in the other models. *)
From Verif Require Import Base DataTypeModel PathModel PathSpec ConvSpec ValModel MetaModel MetaSpec MetaProofs MetaProofs2.
From Verif Require NcEntryModel.

Lemma class_iff : forall t n, (exists c, type_map t n = Some c) <-> known_type t n.
Proof.
  intros t n. unfold known_type. destruct t as [[]|].
  all: split; [intros (c & E)|intros H].
  all: try (destruct H as [H|[H|[H|[H|H]]]]; try (destruct H as (X & Y); try discriminate X); try (destruct X as [X|[X|X]]; discriminate X)).
  all: try (subst n; eexists; reflexivity).
  all: try (cbn in E; destruct n as [|q]; try discriminate; auto 10; fail).
  all: try (cbn in E; destruct n as [|[q|q|]]; try discriminate; auto 10; fail).
  - cbn in E. destruct n as [|[q|q|]]; try discriminate; right; right; right; left; split; auto; lia.
  - destruct n as [|[q|q|]]; try (eexists; reflexivity); lia.
  - right. right. right. right. split; auto. cbn in E. destruct n as [|q]; [lia|]. destruct (N.leb_spec (N.pos q) 6); [lia|]. cbn in *. destruct (N.pos q <=? 6)%N eqn:K in E; [apply N.leb_le in K; lia|discriminate].
  - cbn. destruct n as [|q]; [eexists; reflexivity|]. apply N.leb_le in Y. rewrite Y. eexists. reflexivity.
  - right. right. right. right. split; auto. cbn in E. destruct n as [|q]; [lia|]. destruct (N.pos q <=? 6)%N eqn:K in E; [apply N.leb_le in K; lia|discriminate].
  - cbn. destruct n as [|q]; [eexists; reflexivity|]. apply N.leb_le in Y. rewrite Y. eexists. reflexivity.
  - right. right. right. right. split; auto. cbn in E. destruct n as [|q]; [lia|]. destruct (N.pos q <=? 6)%N eqn:K in E; [apply N.leb_le in K; lia|discriminate].
  - cbn. destruct n as [|q]; [eexists; reflexivity|]. apply N.leb_le in Y. rewrite Y. eexists. reflexivity.
Qed.

Lemma rmap_ok : forall {E A B} (f : A -> result E B) l, (forall a, In a l -> exists b, f a = Ok b) -> exists r, rmap f l = Ok r.
Proof.
  intros E A B f. induction l as [|a l IH]; intros H; [exists []; reflexivity|]. destruct (H a (or_introl eq_refl)) as (b & Eb).
  destruct IH as (r & Er); [intros; apply H; right; assumption|]. exists (b :: r). cbn. rewrite Eb. cbn. rewrite Er. reflexivity.
Qed.
Lemma type_ok : forall s, (forall s', s = Some s' -> In s' (map strs ["dynamic"; "constant"; "static"]%string)) <-> exists t, type_of_value s = Some t.
Proof.
  intros [s|]; cbn -[strs]; [|split; [eexists; reflexivity|intros _ s' X; discriminate]]. split.
  - intros H. destruct (H s eq_refl) as [<-|[<-|[<-|[]]]]; eexists; reflexivity.
  - intros (t & E) s' X. injection X as <-. destruct (str_eqb s (strs "dynamic")) eqn:E1; [apply str_eqb_eq in E1; auto|].
    destruct (str_eqb s (strs "constant")) eqn:E2; [apply str_eqb_eq in E2; auto|]. destruct (str_eqb s (strs "static")) eqn:E3; [apply str_eqb_eq in E3; auto|discriminate].
Qed.

Lemma init_ok : forall y cp par, usable y -> (par = None -> no_own_time y) -> exists i k, init (xattrib y) cp par = Ok (i, Some k).
Proof.
  intros y cp par [(n & N) O (t & nd & T & KT) (pp & P) TI A] NT. unfold init. change (att "name" (xattrib y)) with (attr "name" y). rewrite N. cbn [rbind].
  change (att_or "maxoccur" (strs "unbounded") (xattrib y)) with (match attr "maxoccur" y with Some s => s | None => strs "unbounded" end).
  set (occ := match attr "maxoccur" y with Some s => s | None => strs "unbounded" end).
  set (mo := if str_eqb occ (strs "unbounded") then Ok None else match NcEntryModel.py_int occ with Some z => Ok (Some z) | None => Err MeValue end : result me_exn (option Z)).
  assert (EO : exists m, mo = Ok m).
  { unfold mo, occ. destruct (attr "maxoccur" y) as [s|]; [|rewrite str_eqb_refl; eexists; reflexivity]. destruct (O s eq_refl) as [-> | (z & ->)]; [rewrite str_eqb_refl; eexists; reflexivity|].
    destruct (str_eqb s (strs "unbounded")); eexists; reflexivity. }
  destruct EO as (m & ->). cbn [rbind]. change (att "data_type" (xattrib y)) with (attr "data_type" y). rewrite T. cbn [rbind fst snd].
  change (att_or "path" [] (xattrib y)) with (attr_or "path" y). rewrite (proj2 (rpath_ok _ _) P). cbn [rbind].
  change (att "type" (xattrib y)) with (attr "type" y). destruct (proj1 (type_ok _) TI) as (ty & ET). rewrite ET. cbn [rbind].
  change (att_or "timebasepath" [] (xattrib y)) with (attr_or "timebasepath" y).
  match goal with |- context [rbind ?r _] => assert (EB : exists b, r = Ok b) end.
  { destruct (is_array t) eqn:IA; [eexists; reflexivity|]. destruct (attr_or "timebasepath" y) as [|c tl] eqn:EX; [eexists; reflexivity|].
    destruct (is_dynamic ty) eqn:ED; cbn [negb]; [|eexists; reflexivity]. destruct par as [pm|]; [eexists; reflexivity|]. exfalso.
    assert (X : attr_or "timebasepath" y = []); [|congruence]. apply (NT eq_refl).
    - apply (dyn_iff _ _ ET). assumption.
    - apply (array_b _ _ _ T). assumption. }
  destruct EB as (b & ->). cbn [rbind]. change (att "alternative_coordinate1" (xattrib y)) with (attr "alternative_coordinate1" y).
  match goal with |- context [rbind ?r _] => assert (EA : exists b, r = Ok b) end.
  { destruct (attr "alternative_coordinate1" y) as [s|]; [|eexists; reflexivity]. apply rmap_ok. intros a I. destruct (A s eq_refl a I) as (q & Q). exists q. apply rpath_ok. assumption. }
  destruct EA as (al & ->). cbn [rbind]. destruct (proj2 (class_iff t nd) KT) as (c & EC). rewrite EC. eexists. eexists. reflexivity.
Qed.
Lemma init_usable : forall y cp par i k, init (xattrib y) cp par = Ok (i, Some k) -> usable y /\ (par = None -> no_own_time y).
Proof.
  intros y cp par i k E. assert (E0 := E). destruct (init_inv _ _ _ _ _ E) as (L & _ & T & _). destruct L as [L1 L2 L3 L4 L5 L6 L7 L8 L9 L10 L11]. split.
  - constructor.
    + eauto.
    + intros s ES. unfold init in E. change (att "name" (xattrib y)) with (attr "name" y) in E. rewrite L1 in E. cbn [rbind] in E.
      change (att_or "maxoccur" (strs "unbounded") (xattrib y)) with (match attr "maxoccur" y with Some s => s | None => strs "unbounded" end) in E. rewrite ES in E.
      destruct (str_eqb s (strs "unbounded")) eqn:E1; [apply str_eqb_eq in E1; auto|]. destruct (NcEntryModel.py_int s) as [z|]; [right; eauto|discriminate].
    + exists (x_dtype i), (x_ndim i). split; auto. apply class_iff. eauto.
    + destruct L3. eauto.
    + apply type_ok. eauto.
    + intros s ES a I. rewrite ES in L9. clear -L9 I. induction L9 as [|a' q l r P F IH]; [destruct I|]. destruct I as [<-|I]; eauto.
  - intros -> V NA. unfold tbp_is in T. assert (AR := array_iff _ _ _ L2). destruct (is_array (x_dtype i)); [exfalso; apply NA, AR; reflexivity|].
    apply (dyn_iff _ _ L5) in V. rewrite V in T. apply T.
Qed.
Lemma part_self_or : forall x y, part_of x y -> y = x \/ exists c, In c (xchildren x) /\ part_of c y.
Proof. intros x y P. inversion P; subst; eauto. Qed.
Lemma kids_ok : forall ctx i cs d, (forall c, In c cs -> exists t, build c ctx (Some i) = Ok t) -> exists d', kids ctx i cs d = Ok d'.
Proof.
  induction cs as [|c cs IH]; intros d H; cbn [kids]; [eexists; reflexivity|]. destruct (H c (or_introl eq_refl)) as (t & ->). cbn [rbind]. apply IH. intros; apply H; right; assumption.
Qed.
Lemma kids_all : forall ctx i cs d d', kids ctx i cs d = Ok d' -> forall c, In c cs -> exists t, build c ctx (Some i) = Ok t.
Proof.
  induction cs as [|c cs IH]; intros d d' E c' I; [destruct I|]. cbn [kids] in E. destruct (build c ctx (Some i)) as [t|] eqn:EB; [|discriminate]. cbn [rbind] in E.
  destruct I as [<-|I]; eauto.
Qed.
Lemma build_ok : forall x cp par, (forall y, part_of x y -> usable y) -> (par = None -> no_own_time x) -> exists t, build x cp par = Ok t.
Proof.
  induction x as [tg a cs IH] using xml_ind'. intros cp par U NT. rewrite build_eq. destruct (init_ok (Xml tg a cs) cp par (U _ (part_here _)) NT) as (i & k & E).
  cbn [xattrib] in E. rewrite E. cbn [rbind fst snd]. destruct (kids_ok (child_ctx i) i cs []) as (d & ->); [|eexists; reflexivity].
  intros c I. apply IH; auto; [|discriminate]. intros y P. apply U. econstructor; eauto.
Qed.
Lemma build_usable : forall x cp par t, build x cp par = Ok t -> (forall y, part_of x y -> usable y) /\ (par = None -> no_own_time x).
Proof.
  induction x as [tg a cs IH] using xml_ind'. intros cp par t B. destruct (build_inv _ _ _ _ B) as (k & d & I & K & _). destruct (init_usable _ _ _ _ _ I) as (U & NT). split; auto.
  intros y P. destruct (part_self_or _ _ P) as [-> |(c & IC & PC)]; auto. destruct (kids_all _ _ _ _ _ K c IC) as (u & BU). destruct (IH c IC _ _ _ BU) as (X & _). auto.
Qed.

(** ** [__getitem__] *)
Lemma split_seps_nonnil : forall s, split_seps s <> [].
Proof. destruct s as [|c s]; cbn; [discriminate|]. destruct (is_sep c); [discriminate|]. destruct (split_seps s); discriminate. Qed.
Lemma split_seps_none : forall s, (forall c, In c s -> is_sep c = false) -> split_seps s = [s].
Proof. induction s as [|c s IH]; intros H; cbn; auto. rewrite (H c (or_introl eq_refl)). rewrite IH; auto. intros; apply H; right; assumption. Qed.
Lemma split_seps_cons : forall n c s, (forall d, In d n -> is_sep d = false) -> is_sep c = true -> split_seps (n ++ c :: s) = n :: split_seps s.
Proof.
  induction n as [|d n IH]; intros c s H S; cbn; [rewrite S; reflexivity|]. rewrite (H d (or_introl eq_refl)). rewrite IH; auto. intros; apply H; right; assumption.
Qed.
