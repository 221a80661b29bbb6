(** Proofs for EagerModel: writing and deleting. *)
From Verif Require Import Base TreeModel TreeSpec TreeProofs VmapModel EagerModel EagerSpec EagerProofs EagerProofs2.
From Verif Require PrimModel StoreModel.
Import StoreModel (place, store, pos, top, below, locate, omitted, ctx_path, is_mode, out, seq_out, seq_all, apply_all).

(** the writes carried out are all that happens to the database *)
Definition stores (F : list frame) (l : list ev) : Prop :=
  forall d, drun d F l (root F) = apply_all (d (root F)) (written_all F l) /\ forall p, p <> root F -> drun d F l p = d p.
Lemma stores_nil : forall F, stores F [].
Proof. intros F d. split; auto. Qed.
Lemma stores_app : forall a b F F', arun F a = Some F' -> root F' = root F -> stores F a -> stores F' b -> stores F (a ++ b).
Proof.
  intros a b F F' R E A B d. destruct (A d) as [A1 A2]. destruct (B (drun d F a)) as [B1 B2]. rewrite E in B1, B2.
  rewrite (drun_app _ _ _ _ _ R), (written_app _ _ _ _ R). split.
  - rewrite B1, A1. unfold apply_all. now rewrite fold_left_app.
  - intros p N. now rewrite B2, A2.
Qed.
Lemma stores_one : forall F F' q r, astep F (q, r) = Some F' -> (forall c path, q <> QDelete c path) -> stores F [(q, r)].
Proof.
  intros F F' q r St N d. cbn [drun written_all]. rewrite St, app_nil_r. unfold dstep. cbn [fst snd]. destruct (r_ok r) eqn:O.
  - destruct q; try (exfalso; eapply N; reflexivity); (split; [unfold dset; now rewrite str_eqb_refl|intros p X; apply dset_other; congruence]).
  - split; auto. replace (written F (q, r)) with (@nil StoreModel.call); auto. destruct q; cbn; auto; rewrite O; [now rewrite andb_false_r|auto].
Qed.

Definition res {A} (r : result exn A) (e : option StoreModel.exn) : Prop := match e with None => exists a, r = Ok a | Some e => r = Err (Own e) end.
Definition wrote {A} (F : list frame) (l : list ev) (o : out) (r : result exn A) : Prop :=
  stores F l /\ exists rest, fst o = written_all F l ++ rest /\ (forallb fine l = true -> rest = [] /\ res r (snd o)).

Section Writing.
Variable answer : list ev -> request -> reply.
Local Notation M := (EagerModel.M).
Local Notation tri := (tri (A:=_)).
Definition puts {A} (F : list frame) (t : list ev) (x : M A) (o : out) : Prop := tri F t x (fun l F' r => F' = F /\ wrote F l o r).

Lemma puts_ret : forall A F t (a : A) , puts F t (ret a) StoreModel.done.
Proof. intros A F t a. apply tri_ret. split; auto. split; [apply stores_nil|]. exists []. split; auto. intros _. split; auto. cbn. eauto. Qed.
Lemma puts_fail : forall A F t e, e <> StoreModel.Lowlevel -> puts F t (fail (Own e) : M A) ([], Some e).
Proof. intros A F t e N. apply tri_fail; [now apply inner_own|]. split; auto. split; [apply stores_nil|]. exists []. cbn. auto. Qed.
Lemma puts_bind : forall A B F t (x : M A) (f : A -> M B) o1 o2, puts F t x o1 -> (forall a t', puts F t' (f a) o2) -> puts F t (mbind x f) (seq_out o1 o2).
Proof.
  intros A B F t x f o1 o2 X K. eapply tri_bind; [exact X| |]; cbv beta.
  - intros l F' a (-> & S1 & rest & E1 & C1) R Fi. eapply tri_weak; [apply K|]. cbv beta. intros l2 F2 r R2 _ (-> & S2 & rest2 & E2 & C2). split; auto.
    destruct (C1 Fi) as [-> Re]. rewrite app_nil_r in E1. unfold res in Re. unfold seq_out. destruct (snd o1); [discriminate Re|]. split.
    + eapply stores_app; eauto.
    + exists rest2. cbn [fst snd]. rewrite (written_app _ _ _ _ R), E1, E2, app_assoc. split; auto. rewrite forallb_app, Fi. auto.
  - intros l F' e (-> & S1 & rest & E1 & C1) R _. split; auto. split; auto. unfold seq_out. destruct (snd o1) as [e1|] eqn:S.
    + exists rest. split; auto. intros Fi. destruct (C1 Fi) as [-> Re]. split; [reflexivity|]. unfold res in *. rewrite S in *. congruence.
    + exists (rest ++ fst o2). cbn [fst]. rewrite E1, app_assoc. split; auto. intros Fi. destruct (C1 Fi) as [_ (a & Re)]. discriminate.
Qed.
Lemma puts_out : forall A F t (x : M A) o o', o = o' -> puts F t x o -> puts F t x o'.
Proof. intros; subst; auto. Qed.
(** the value returned does not matter *)
Lemma puts_then_ret : forall A B F t (x : M A) (b : B) o, puts F t x o -> puts F t (mbind x (fun _ => ret b)) o.
Proof.
  intros A B F t x b o X. eapply puts_out; [|apply (puts_bind _ _ F t x _ o StoreModel.done X)]; [|intros; apply puts_ret].
  unfold seq_out, StoreModel.done. destruct o as [cl [e|]]; cbn; auto. now rewrite app_nil_r.
Qed.
Lemma all_puts : forall A (l : list A) F (f : A -> M unit) (g : A -> out), (forall x t, In x l -> puts F t (f x) (g x)) ->
  forall t, puts F t (all f l) (seq_all g l).
Proof.
  induction l as [|x l IH]; intros F f g H t; [apply puts_ret|]. cbn [all]. unfold seq_all. cbn [fold_right]. fold (seq_all g l).
  apply puts_bind; [apply H; now left|]. intros _ t1. apply IH. intros y t2 Y. apply H. now right.
Qed.
Lemma each_puts : forall els F c pl sz (f : node -> M unit) (g : nat -> node -> out),
  (forall j e t, (0 <= j < sz)%Z -> In e els -> puts (FArray c pl sz j :: F) t (f e) (g (Z.to_nat j) e)) ->
  forall i t, (0 <= i)%Z -> (i + Z.of_nat (length els) = sz)%Z ->
  tri (FArray c pl sz i :: F) t (each answer c f els) (fun l F' r => (exists j, F' = FArray c pl sz j :: F) /\
    wrote (FArray c pl sz i :: F) l (seq_all (fun ie => g (fst ie) (snd ie)) (combine (seq (Z.to_nat i) (length els)) els)) r).
Proof.
  induction els as [|x els IH]; intros F c pl sz f g H i t I0 Is.
  - apply tri_ret. split; [eauto|]. split; [apply stores_nil|]. exists []. split; auto. intros _. split; auto. cbn. eauto.
  - cbn [length] in *. cbn [each seq combine]. unfold seq_all. cbn [fold_right fst snd]. fold (seq_all (fun ie : nat * node => g (fst ie) (snd ie)) (combine (seq (S (Z.to_nat i)) (length els)) els)).
    set (o2 := seq_all _ _). set (o1 := g (Z.to_nat i) x).
    eapply tri_bind; [apply (H i x t); [lia|now left]| |]; cbv beta.
    + intros l F' a (-> & S1 & rest & E1 & C1) R1 Fi.
      destruct (C1 Fi) as [-> Re]. rewrite app_nil_r in E1. unfold res in Re. fold o1 in E1, Re.
      assert (Step : (0 <=? i + 1)%Z && (i + 1 <=? sz)%Z = true) by (apply andb_true_iff; split; apply Z.leb_le; lia).
      assert (So : seq_out o1 o2 = (fst o1 ++ fst o2, snd o2)) by (unfold seq_out; destruct (snd o1); [discriminate Re|auto]).
      set (rp := answer (t ++ l) (QIter c 1)).
      assert (St : astep (FArray c pl sz i :: F) (QIter c 1, rp) = Some (if r_ok rp then FArray c pl sz (i + 1) :: F else FArray c pl sz i :: F)).
      { cbn [astep]. rewrite Nat.eqb_refl. cbn [andb]. now rewrite Step. }
      assert (S2 : stores (FArray c pl sz i :: F) [(QIter c 1, rp)]) by (eapply stores_one; [exact St|congruence]).
      assert (W2 : written_all (FArray c pl sz i :: F) [(QIter c 1, rp)] = []) by (cbn [written_all]; rewrite St; reflexivity).
      eapply tri_bind; [change lowlevel with (error_of (QIter c 1)); eapply tri_call with
          (P := fun l2 F2 r => l2 = [(QIter c 1, rp)] /\ (match r with Ok _ => F2 = FArray c pl sz (i + 1) :: F | Err e => F2 = FArray c pl sz i :: F /\ fine (QIter c 1, rp) = false end)); [reflexivity| |]| |].
      * fold rp. exact St.
      * fold rp. split; auto. destruct (r_ok rp) eqn:O; auto.
      * cbv beta iota. intros l2 F2 r0 (-> & ->) R2 Fi2.
        assert (R12 : arun (FArray c pl sz i :: F) (l ++ [(QIter c 1, rp)]) = Some (FArray c pl sz (i + 1) :: F)) by (rewrite arun_app, R1; exact R2).
        assert (W12 : written_all (FArray c pl sz i :: F) (l ++ [(QIter c 1, rp)]) = fst o1) by (rewrite (written_app _ _ _ _ R1), W2, app_nil_r; auto).
        assert (S12 : stores (FArray c pl sz i :: F) (l ++ [(QIter c 1, rp)])) by (eapply stores_app; eauto).
        eapply tri_bind; [apply (IH F c pl sz f g) with (i := (i + 1)%Z); [intros; apply H; [auto|now right]|lia|lia]| |]; cbv beta;
          replace (Z.to_nat (i + 1)) with (S (Z.to_nat i)) by lia; fold o2.
        -- intros l3 F3 ys ((j & ->) & S3 & rest3 & E3 & C3) R3 Fi3. apply tri_ret. split; [eauto|]. rewrite app_nil_r.
           destruct (C3 Fi3) as [-> Re3]. rewrite app_nil_r in E3. split.
           ++ rewrite app_assoc. eapply stores_app; eauto.
           ++ exists []. rewrite So, app_assoc. cbn [fst snd]. rewrite (written_app _ _ _ _ R12), W12, E3, app_nil_r. split; auto. intros _. split; auto.
              unfold res in *. destruct (snd o2); [discriminate|eauto].
        -- intros l3 F3 e ((j & ->) & S3 & rest3 & E3 & C3) R3 _. split; [eauto|]. split.
           ++ rewrite app_assoc. eapply stores_app; eauto.
           ++ exists rest3. rewrite So, app_assoc. cbn [fst snd]. rewrite (written_app _ _ _ _ R12), W12, E3. split; [now rewrite app_assoc|].
              rewrite forallb_app. intros Fa. apply andb_true_iff in Fa as [_ Fa]. destruct (C3 Fa) as [-> Re3]. split; auto.
      * cbv beta iota. intros l2 F2 e (-> & -> & Nf) R2 _. split; [eauto|]. split.
        -- eapply stores_app; eauto.
        -- exists (fst o2). rewrite So. cbn [fst]. rewrite (written_app _ _ _ _ R1), W2, app_nil_r, E1. split; auto.
           rewrite forallb_app. cbn [forallb]. rewrite Nf, andb_false_r. discriminate.
    + intros l F' e (-> & S1 & rest & E1 & C1) R _. split; [eauto|]. split; auto. fold o1 in E1, C1. unfold seq_out. destruct (snd o1) as [e1|] eqn:S.
      * exists rest. split; auto. intros Fi. destruct (C1 Fi) as [-> Re]. split; [reflexivity|]. unfold res in *. rewrite S in *. congruence.
      * exists (rest ++ fst o2). cbn [fst]. rewrite E1, app_assoc. split; auto. intros Fi. destruct (C1 Fi) as [_ (a & Re)]. discriminate.
Qed.

Variable dynamic : list str -> bool.
Variable xml_tbp : list str -> str.
Variable maxoccur : list str -> option nat.
Variable nbc : option nmap.
Variable mode : Z.
Variable is_slice verify : bool.
Local Notation put_node := (EagerModel.put_node answer dynamic xml_tbp maxoccur nbc mode is_slice verify).
Local Notation sput := (StoreModel.put_node dynamic xml_tbp maxoccur nbc mode is_slice verify).

Lemma sput_eq : forall m n p c, sput m n p c =
  let put_struct (fs : TreeModel.fields) (q : pos) c : out :=
      seq_all (fun d => match alookup (mname d) fs with
                        | Some ch => if has_value d ch then sput d ch q c else StoreModel.done
                        | None => StoreModel.done
                        end) (mchildren m) in
    if omitted dynamic mode p m then StoreModel.done else
    match locate dynamic xml_tbp nbc mode p m with
    | Err e => ([], Some e)
    | Ok None => StoreModel.done
    | Ok (Some pl) =>
      match mkind m, n with
      | KAoS, NAoS els =>
        if verify && match maxoccur (StoreModel.p_names p ++ [mname m]) with Some (S x) => S x <? length els | _ => false end then ([], Some StoreModel.TooMany) else
        seq_out ([StoreModel.Begin (c, pl) (length els)], None)
          (seq_all (fun ie => put_struct (node_fields (snd ie)) (below dynamic p m) (c ++ [(pl, fst ie)])) (enum els))
      | KStruct, NStruct fs => put_struct fs (below dynamic p m) c
      | KLeaf _ _, NLeaf (Some v) =>
        if is_slice && negb (dynamic (StoreModel.p_names p ++ [mname m])) then StoreModel.done else ([StoreModel.Write (c, pl) v], None)
      | _, _ => StoreModel.done
      end
    end.
Proof. intros [nm k cs] n p c. reflexivity. Qed.

Lemma put_puts : forall m n p F c t, usable F c = true -> writing F = true -> puts F t (put_node m n p c) (sput m n p (around F)).
Proof.
  intros m. meta_induction m. intros nd p F c t U W. cbn [EagerModel.put_node]. rewrite sput_eq. set (m := Meta n k cs) in *. cbv zeta.
  destruct (omitted dynamic mode p m); [apply puts_ret|].
  destruct (locate dynamic xml_tbp nbc mode p m) as [[pl|]|e] eqn:Lo; [|apply puts_ret|].
  2:{ pose proof (locate_err _ _ _ _ _ _ _ Lo) as ->. apply puts_fail. discriminate. }
  assert (PS : forall fs F' c' t', usable F' c' = true -> writing F' = true -> puts F' t'
     (all (fun d => match alookup (mname d) fs with Some ch => if has_value d ch then put_node d ch (below dynamic p m) c' else ret tt | None => ret tt end) cs)
     (seq_all (fun d => match alookup (mname d) fs with Some ch => if has_value d ch then sput d ch (below dynamic p m) (around F') else StoreModel.done | None => StoreModel.done end) cs)).
  { intros fs F' c' t' U' W'. apply all_puts. intros d t1 D. destruct (alookup (mname d) fs) as [ch|]; [|apply puts_ret].
    destruct (has_value d ch); [|apply puts_ret]. apply IH; auto. }
  change (mkind m) with k. change (mchildren m) with cs. change (mname m) with n. destruct k as [| |dt kd].
  - destruct nd as [fs|els|v]; [|apply puts_ret|apply puts_ret]. now apply PS.
  - destruct nd as [fs|els|v]; [apply puts_ret| |apply puts_ret].
    destruct (verify && _); [apply puts_fail; discriminate|].
    set (new := S (length t)). set (q := QArray c new pl (Z.of_nat (length els))). set (r := answer t q).
    set (f0 := FArray new pl (Z.of_nat (length els)) 0).
    assert (A0 : astep F (q, r) = Some (if r_ok r then f0 :: F else F)) by (cbn [astep q]; rewrite U, W; reflexivity).
    assert (S0 : stores F [(q, r)]) by (eapply stores_one; [exact A0|unfold q; congruence]).
    assert (W0 : written_all F [(q, r)] = if r_ok r then [StoreModel.Begin (around F, pl) (length els)] else []).
    { cbn [written_all]. rewrite A0, app_nil_r. unfold q. cbn [written]. rewrite W. cbn [andb]. now rewrite Nat2Z.id. }
    set (o2 := seq_all _ (enum els)).
    apply (tri_with answer _ F t (fun new => QArray c new pl (Z.of_nat (length els))) _ _ f0); fold new; fold q; fold r; auto.
    + intros O. split; auto. split; auto. rewrite W0, O. exists (fst (seq_out ([StoreModel.Begin (around F, pl) (length els)], None) o2)). split; auto.
      cbn [forallb]. unfold fine. cbn [snd is_end q orb]. rewrite O. discriminate.
    + intros O. rewrite O in A0, W0.
      assert (R0 : arun F [(q, r)] = Some (f0 :: F)) by (cbn [arun]; now rewrite A0).
      assert (EE : forall t1, tri (f0 :: F) t1 (each answer new (fun e => all (fun d => match alookup (mname d) (node_fields e) with
                      | Some ch => if has_value d ch then put_node d ch (below dynamic p m) new else ret tt | None => ret tt end) cs) els)
               (fun l F' rr => (exists j, F' = FArray new pl (Z.of_nat (length els)) j :: F) /\ wrote (f0 :: F) l o2 rr)).
      { intros t1. apply (each_puts els F new pl (Z.of_nat (length els)) _ (fun i e => seq_all (fun d => match alookup (mname d) (node_fields e) with
             Some ch => if has_value d ch then sput d ch (below dynamic p m) (around F ++ [(pl, i)]) else StoreModel.done | None => StoreModel.done end) cs)); try lia.
        intros j e t2 J _. apply (PS (node_fields e) (FArray new pl (Z.of_nat (length els)) j :: F)).
        - cbn [usable]. rewrite Nat.eqb_refl. cbn [andb]. apply andb_true_iff. split; [apply Z.leb_le|apply Z.ltb_lt]; lia.
        - exact W. }
      assert (S9 : forall j rE, stores (FArray new pl (Z.of_nat (length els)) j :: F) [(QEnd new, rE)]).
      { intros. eapply stores_one; [cbn [astep fid]; rewrite Nat.eqb_refl; reflexivity|congruence]. }
      assert (W9 : forall j rE, written_all (FArray new pl (Z.of_nat (length els)) j :: F) [(QEnd new, rE)] = []).
      { intros. cbn [written_all written astep fid]. now rewrite Nat.eqb_refl. }
      assert (Fin : forall l j (rr : result exn unit) rE, arun (f0 :: F) l = Some (FArray new pl (Z.of_nat (length els)) j :: F) -> wrote (f0 :: F) l o2 rr ->
                wrote F ((q, r) :: l ++ [(QEnd new, rE)]) (seq_out ([StoreModel.Begin (around F, pl) (length els)], None) o2) rr).
      { intros l j rr rE R1 (S1 & rest & E1 & C1). change ((q, r) :: l ++ [(QEnd new, rE)]) with ([(q, r)] ++ (l ++ [(QEnd new, rE)])). split.
        - eapply stores_app; [exact R0|reflexivity|exact S0|]. eapply stores_app; [exact R1|reflexivity|exact S1|apply S9].
        - exists rest. rewrite (written_app _ _ _ _ R0), (written_app _ _ _ _ R1), W0, W9, app_nil_r. unfold seq_out. cbn [fst snd app]. rewrite E1. split; auto.
          cbn [forallb]. rewrite forallb_app. intros Fa. apply andb_true_iff in Fa as [_ Fa]. apply andb_true_iff in Fa as [Fa _]. auto. }
      eapply tri_bind; [apply EE| |]; cbv beta.
      * intros l F' ys ((j & ->) & Wr) R1 Fi. apply tri_ret. exists (FArray new pl (Z.of_nat (length els)) j). split; auto. split; auto. intros rE. split; auto.
        rewrite app_nil_r. apply Fin with (j := j); auto. destruct Wr as (S1 & rest & E1 & C1). split; auto. exists rest. split; auto. intros Fi'. destruct (C1 Fi') as [-> Re]. split; auto.
        unfold res in *. destruct (snd o2); [discriminate|eauto].
      * intros l F' e ((j & ->) & Wr) R1 _. exists (FArray new pl (Z.of_nat (length els)) j). split; auto. split; auto. intros rE. split; auto.
        apply Fin with (j := j); auto. destruct Wr as (S1 & rest & E1 & C1). split; auto. exists rest. split; auto. intros Fi'. destruct (C1 Fi') as [-> Re]. split; auto.
        unfold res in *. destruct (snd o2); [congruence|destruct Re; discriminate].
  - destruct nd as [fs|els|[v|]]; try apply puts_ret. destruct (is_slice && _); [apply puts_ret|]. apply puts_then_ret.
    set (r := answer t (QWrite c pl v)).
    assert (A0 : astep F (QWrite c pl v, r) = Some F) by (cbn [astep]; rewrite U, W; reflexivity).
    change BadArguments with (error_of (QWrite c pl v)). eapply tri_call; [reflexivity|fold r; exact A0|]. fold r. split; auto. split; [eapply stores_one; [exact A0|congruence]|].
    cbn [written_all]. rewrite A0, app_nil_r. cbn [written fst snd]. destruct (r_ok r) eqn:O.
    + exists []. split; auto. intros _. split; auto. cbn. eauto.
    + exists [StoreModel.Write (around F, pl) v]. split; auto. cbn. unfold fine. cbn [snd is_end orb]. rewrite O. discriminate.
Qed.
Lemma put_children_puts : forall m n F c t, usable F c = true -> writing F = true -> around F = [] ->
  puts F t (EagerModel.put_children answer dynamic xml_tbp maxoccur nbc mode is_slice verify m n c)
    (StoreModel.put_children dynamic xml_tbp maxoccur nbc mode is_slice verify m n).
Proof.
  intros m n F c t U W A. unfold EagerModel.put_children, StoreModel.put_children, StoreModel.put_fields. apply all_puts. intros d t1 _.
  destruct (alookup (mname d) (node_fields n)) as [ch|]; [|apply puts_ret]. destruct (has_value d ch); [|apply puts_ret]. rewrite <- A. now apply put_puts.
Qed.
End Writing.

(** * Deleting *)
Section Deleting.
Variable answer : list ev -> request -> reply.
Local Notation M := (EagerModel.M).
Local Notation tri := (tri (A:=_)).
(** all calls succeeded: the store of the occurrence is changed by [g], no other; nothing is written *)
Definition alters {A} (F : list frame) (t : list ev) (x : M A) (g : store -> store) : Prop :=
  tri F t x (fun l F' r => F' = F /\ written_all F l = [] /\ (forall e, r = Err e -> forallb fine l = false) /\
    (forall d p, p <> root F -> drun d F l p = d p) /\ (forallb fine l = true -> forall d, drun d F l (root F) = g (d (root F)))).
Lemma alters_ret : forall F t, alters F t (ret tt) (fun s => s).
Proof. intros F t. apply tri_ret. repeat split; auto. discriminate. Qed.
Lemma alters_bind : forall A B F t (x : M A) (f : A -> M B) g h, alters F t x g -> (forall a t', alters F t' (f a) h) -> alters F t (mbind x f) (fun s => h (g s)).
Proof.
  intros A B F t x f g h X K. eapply tri_bind; [exact X| |]; cbv beta.
  - intros l F' a (-> & W1 & N1 & O1 & G1) R Fi. eapply tri_weak; [apply K|]. cbv beta. intros l2 F2 r R2 _ (-> & W2 & N2 & O2 & G2). split; auto. split.
    { now rewrite (written_app _ _ _ _ R), W1, W2. } split.
    { intros e E. rewrite forallb_app, Fi. now apply (N2 e). } split.
    { intros d p P. rewrite (drun_app _ _ _ _ _ R), O2, O1; auto. }
    rewrite forallb_app, Fi. intros Fi2 d. rewrite (drun_app _ _ _ _ _ R), G2, G1; auto.
  - intros l F' e (-> & W1 & N1 & O1 & G1) R _. split; auto. split; auto. split; [intros e' E; now apply (N1 e)|]. split; auto. rewrite (N1 e eq_refl). discriminate.
Qed.
Lemma alters_eq : forall A F t (x : M A) g h, (forall s, g s = h s) -> alters F t x g -> alters F t x h.
Proof.
  intros A F t x g h H X. eapply tri_weak; [exact X|]. cbv beta. intros l F' r _ _ (-> & W1 & N1 & O1 & G1). split; auto. split; auto. split; auto. split; auto.
  intros Fi d. rewrite <- H. auto.
Qed.
Lemma all_alters : forall A (l : list A) F (f : A -> M unit) (g : store -> A -> store), (forall x t, In x l -> alters F t (f x) (fun s => g s x)) ->
  forall t, alters F t (all f l) (fun s => fold_left g l s).
Proof.
  induction l as [|x l IH]; intros F f g H t; [apply alters_ret|]. cbn [all fold_left].
  apply (alters_bind _ _ F t (f x) _ (fun s => g s x) (fun s => fold_left g l s)); [apply H; now left|]. intros _ t1. apply IH. intros y t2 Y. apply H. now right.
Qed.
Lemma delete_alters : forall dynamic c a m p t, alters [FIDS c a true] t (delete_node answer dynamic c m p) (StoreModel.delete_node dynamic m p).
Proof.
  intros dynamic c a m. meta_induction m. intros p t.
  assert (Leaf : alters [FIDS c a true] t (mbind (call answer lowlevel (QDelete c (ctx_path p n))) (fun _ => ret tt)) (StoreModel.delete (ctx_path p n))).
  { apply (alters_bind _ _ _ t _ _ (StoreModel.delete (ctx_path p n)) (fun s => s)); [|intros; apply alters_ret].
    change lowlevel with (error_of (QDelete c (ctx_path p n))). set (r := answer t (QDelete c (ctx_path p n))).
    assert (A0 : astep [FIDS c a true] (QDelete c (ctx_path p n), r) = Some [FIDS c a true]) by (cbn [astep]; now rewrite Nat.eqb_refl).
    eapply tri_call; [reflexivity|fold r; exact A0|]. fold r. split; auto. split; [cbn [written_all]; now rewrite A0|]. split.
    { intros e E. cbn. unfold fine. cbn. destruct (r_ok r); [discriminate|auto]. }
    cbn [drun]. rewrite A0. unfold dstep. cbn [fst snd]. split.
    - intros d q N. destruct (r_ok r); auto. apply dset_other. congruence.
    - cbn. unfold fine. cbn. destruct (r_ok r); [|discriminate]. intros _ d. unfold dset. now rewrite str_eqb_refl. }
  cbn [delete_node StoreModel.delete_node]. destruct k; auto.
  apply (all_alters _ cs _ _ (fun s d => StoreModel.delete_node dynamic d (below dynamic p (Meta n KStruct cs)) s)). intros d t1 D. now apply IH.
Qed.
Lemma delete_children_alters : forall dynamic c a m t, alters [FIDS c a true] t (delete_children answer dynamic c m) (StoreModel.delete_children dynamic m).
Proof.
  intros dynamic c a m t. unfold delete_children, StoreModel.delete_children.
  apply (all_alters _ (mchildren m) _ _ (fun s d => StoreModel.delete_node dynamic d top s)). intros d t1 D. apply delete_alters.
Qed.
End Deleting.
