(** Proofs for EagerModel: reading. *)
From Verif Require Import Base TreeModel TreeSpec TreeProofs VmapModel EagerModel EagerSpec EagerProofs.
From Verif Require PrimModel StoreModel.
Import StoreModel (place, store, pos, top, below, locate, omitted, ctx_path, is_mode).

Definition own {A} (r : result StoreModel.exn A) : result exn A := match r with Ok a => Ok a | Err e => Err (Own e) end.
(** the database is not changed *)
Definition still (F : list frame) (l : list ev) : Prop := forall d p, drun d F l p = d p.
Lemma still_nil : forall F, still F [].
Proof. intros F d p. reflexivity. Qed.
Lemma still_app : forall a b F F', arun F a = Some F' -> still F a -> still F' b -> still F (a ++ b).
Proof. intros a b F F' R A B d p. rewrite (drun_app _ _ _ _ _ R), B. apply A. Qed.
Lemma still_one : forall F q r, written F (q, r) = [] -> (forall c path, q <> QDelete c path) -> still F [(q, r)].
Proof.
  intros F q r A N d p. cbn [drun]. destruct (astep F (q, r)) as [F'|]; auto. unfold dstep. cbn [fst snd]. destruct (r_ok r); auto.
  destruct q; try (exfalso; eapply N; reflexivity); rewrite A; cbn [StoreModel.apply_all fold_left]; apply dset_id.
Qed.

(** [locate] raises KeyError only *)
Lemma locate_err : forall dynamic xml_tbp nbc mode p m e, locate dynamic xml_tbp nbc mode p m = Err e -> e = StoreModel.NoContext.
Proof.
  intros dynamic xml_tbp nbc mode p m e H. unfold locate in H. destruct nbc as [mp|]; cbn in H; [|discriminate].
  destruct (alookup _ (m_path mp)) as [[x|]|]; try discriminate H.
  - destruct (alookup _ (m_ctx mp)); [destruct (alookup _ (m_tbp mp))|]; cbn in H; congruence.
  - destruct (has _ _); discriminate H.
Qed.
Lemma read_err : forall s k dt nd e, StoreModel.read s k dt nd = Err e -> e = StoreModel.Lowlevel.
Proof. intros s k dt nd e H. unfold StoreModel.read in H. destruct (StoreModel.s_data s k); [destruct (StoreModel.typed dt nd v)|]; congruence. Qed.
Lemma inner_own : forall e, e <> StoreModel.Lowlevel -> inner (Own e).
Proof. intros e H. split; congruence. Qed.

Section Reading.
Variable answer : list ev -> request -> reply.
Definition answers (vw : action -> store -> store) (d0 : db) : Prop := forall t q, answer t q = ideal vw d0 t q.
Local Notation M := (EagerModel.M).
Local Notation tri := (tri (A:=_)).

(** [x] leaves contexts and database as they are; if the replies come from an ideal database, its result is that of [g] for the store of
    the occurrence *)
Definition reads {A} (F : list frame) (t : list ev) (x : M A) (g : store -> result StoreModel.exn A) : Prop :=
  tri F t x (fun l F' r => F' = F /\ still F l /\ forall vw d0, answers vw d0 -> arun [] t = Some F -> r = own (g (seen vw F (drun d0 [] t (root F))))).

Lemma reads_ret : forall A F t (a : A) (g : store -> result StoreModel.exn A), (forall s, g s = Ok a) -> reads F t (ret a) g.
Proof. intros A F t a g H. apply tri_ret. repeat split; auto. intros vw d0 _ _. now rewrite H. Qed.
Lemma reads_fail : forall A F t e (g : store -> result StoreModel.exn A), e <> StoreModel.Lowlevel -> (forall s, g s = Err e) -> reads F t (fail (Own e)) g.
Proof. intros A F t e g N H. apply tri_fail; [now apply inner_own|]. repeat split; auto. intros vw d0 _ _. now rewrite H. Qed.
Lemma reads_bind : forall A B F t (x : M A) (f : A -> M B) g h, reads F t x g -> (forall a t', reads F t' (f a) (h a)) ->
  reads F t (mbind x f) (fun s => rbind (g s) (fun a => h a s)).
Proof.
  intros A B F t x f g h X K. unfold reads. eapply tri_bind; [exact X| |].
  - intros l F' a (-> & S1 & E1) R Fi. eapply tri_weak; [apply K|]. cbv beta. intros l2 F2 r R2 _ (-> & S2 & E2). split; auto. split.
    + eapply still_app; eauto.
    + intros vw d0 An T. specialize (E1 vw d0 An T). destruct (g (seen vw F (drun d0 [] t (root F)))) as [a'|e]; [|discriminate]. injection E1 as <-. cbn [rbind].
      rewrite (E2 vw d0 An); [|now rewrite arun_app, T]. now rewrite (drun_app _ _ _ _ _ T), S1.
  - intros l F' e (-> & S1 & E1) _ _. split; auto. split; auto. intros vw d0 An T. specialize (E1 vw d0 An T).
    destruct (g (seen vw F (drun d0 [] t (root F)))) as [a'|e']; [discriminate|]. injection E1 as ->. reflexivity.
Qed.
Lemma reads_eq : forall A F t (x : M A) g h, (forall s, g s = h s) -> reads F t x g -> reads F t x h.
Proof. intros A F t x g h H X. eapply tri_weak; [exact X|]. cbv beta. intros l F' r _ _ (-> & S & E). repeat split; auto. intros vw d0 An T. now rewrite <- H, <- E. Qed.

Lemma reads_read : forall F t c pl dt nd, usable F c = true -> writing F = false ->
  tri F t (call answer lowlevel (QRead c pl dt nd)) (fun l F' r => F' = F /\ still F l /\
    forall vw d0, answers vw d0 -> arun [] t = Some F ->
      match r, StoreModel.read (seen vw F (drun d0 [] t (root F))) (around F, pl) dt nd with
      | Ok rp, Ok v => r_data rp = v
      | Err e, Err e' => e = Own e'
      | _, _ => False
      end).
Proof.
  intros F t c pl dt nd U W. change lowlevel with (error_of (QRead c pl dt nd)). eapply tri_call; [reflexivity| |].
  - cbn [astep]. rewrite U, W. reflexivity.
  - split; auto. split; [apply still_one; [reflexivity|congruence]|]. intros vw d0 An T. rewrite An. unfold ideal. rewrite T.
    destruct (StoreModel.read _ _ dt nd) as [v|e] eqn:E; cbn; auto. now rewrite (read_err _ _ _ _ _ E).
Qed.
Lemma gather_reads : forall cs F (f : meta -> M (option node)) (g : store -> meta -> result StoreModel.exn (option node)),
  (forall d t, In d cs -> reads F t (f d) (fun s => g s d)) -> forall t, reads F t (gather cs f) (fun s => StoreModel.gather cs (g s)).
Proof.
  induction cs as [|d cs IH]; intros F f g H t.
  - apply reads_ret. reflexivity.
  - cbn [gather].
    apply (reads_bind _ _ F t (f d) _ (fun s => g s d)
      (fun x s => rbind (StoreModel.gather cs (g s)) (fun r => Ok (match x with Some n => (mname d, n) :: r | None => r end)))).
    + apply H. now left.
    + intros x t1.
      apply (reads_bind _ _ F t1 (gather cs f) _ (fun s => StoreModel.gather cs (g s)) (fun r _ => Ok (match x with Some n => (mname d, n) :: r | None => r end))).
      * apply IH. intros. apply H. now right.
      * intros r t2. apply reads_ret. reflexivity.
Qed.

(** the loop over the elements of an array *)
Lemma each_reads : forall n F c pl sz (f : unit -> M node) (g : store -> nat -> result StoreModel.exn node),
  (forall j t, (0 <= j < sz)%Z -> reads (FArray c pl sz j :: F) t (f tt) (fun s => g s (Z.to_nat j))) ->
  forall i t, (0 <= i)%Z -> (i + Z.of_nat n = sz)%Z ->
  tri (FArray c pl sz i :: F) t (each answer c f (repeat tt n)) (fun l F' r => (exists j, F' = FArray c pl sz j :: F) /\
    still (FArray c pl sz i :: F) l /\
    forall vw d0, answers vw d0 -> arun [] t = Some (FArray c pl sz i :: F) -> r = own (StoreModel.rmap (g (seen vw F (drun d0 [] t (root F)))) (seq (Z.to_nat i) n))).
Proof.
  induction n as [|n IH]; intros F c pl sz f g H i t I0 Is.
  - apply tri_ret. split; [eauto|]. split; auto. apply still_nil.
  - cbn [repeat each]. eapply tri_bind; [apply (H i t); lia| |].
    + intros l F' a (-> & S1 & E1) R1 _.
      assert (Step : (0 <=? i + 1)%Z && (i + 1 <=? sz)%Z = true) by (apply andb_true_iff; split; apply Z.leb_le; lia).
      eapply tri_bind; [change lowlevel with (error_of (QIter c 1)); eapply tri_call with
          (P := fun l2 F2 r => l2 = [(QIter c 1, answer (t ++ l) (QIter c 1))] /\ (match r with Ok _ => F2 = FArray c pl sz (i + 1) :: F | Err e => F2 = FArray c pl sz i :: F /\ e = lowlevel /\ r_ok (answer (t ++ l) (QIter c 1)) = false end)); [reflexivity| |]| |].
      * cbn [astep]. rewrite Nat.eqb_refl. cbn [andb]. rewrite Step. reflexivity.
      * destruct (r_ok _) eqn:O; auto.
      * cbv beta iota. intros l2 F2 rp (-> & ->) R2 _.
        assert (S2 : forall r, still (FArray c pl sz i :: F) [(QIter c 1, r)]) by (intros r; apply still_one; [reflexivity|congruence]).
        eapply tri_bind; [apply (IH F c pl sz f g H (i + 1)%Z); lia| |].
        -- intros l3 F3 ys ((j & ->) & S3 & E3) R3 _. apply tri_ret. split; [eauto|]. rewrite app_nil_r. split.
           ++ eapply still_app; eauto. eapply still_app; eauto.
           ++ intros vw d0 An T. specialize (E1 vw d0 An T). cbn [root seen] in *. cbn [seq StoreModel.rmap].
              destruct (g (seen vw F (drun d0 [] t (root F))) (Z.to_nat i)) as [y|e] eqn:G; [|discriminate]. injection E1 as <-. cbn [rbind].
              assert (T1 : arun [] (t ++ l) = Some (FArray c pl sz i :: F)) by (rewrite arun_app, T; exact R1).
              assert (D1 : drun d0 [] (t ++ l) (root F) = drun d0 [] t (root F)) by (rewrite (drun_app _ _ _ _ _ T); apply S1).
              assert (T2 : arun [] ((t ++ l) ++ [(QIter c 1, answer (t ++ l) (QIter c 1))]) = Some (FArray c pl sz (i + 1) :: F)) by (rewrite arun_app, T1; exact R2).
              specialize (E3 vw d0 An T2). rewrite (drun_app _ _ _ _ _ T1), S2, D1 in E3. replace (S (Z.to_nat i)) with (Z.to_nat (i + 1)) by lia.
              destruct (StoreModel.rmap _ (seq (Z.to_nat (i + 1)) n)) as [ys'|e]; [|discriminate]. injection E3 as <-. reflexivity.
        -- intros l3 F3 e ((j & ->) & S3 & E3) R3 _. split; [eauto|]. split.
           ++ eapply still_app; eauto. eapply still_app; eauto.
           ++ intros vw d0 An T. specialize (E1 vw d0 An T). cbn [root seen] in *. cbn [seq StoreModel.rmap].
              destruct (g (seen vw F (drun d0 [] t (root F))) (Z.to_nat i)) as [y|e'] eqn:G; [|discriminate]. injection E1 as <-. cbn [rbind].
              assert (T1 : arun [] (t ++ l) = Some (FArray c pl sz i :: F)) by (rewrite arun_app, T; exact R1).
              assert (D1 : drun d0 [] (t ++ l) (root F) = drun d0 [] t (root F)) by (rewrite (drun_app _ _ _ _ _ T); apply S1).
              assert (T2 : arun [] ((t ++ l) ++ [(QIter c 1, answer (t ++ l) (QIter c 1))]) = Some (FArray c pl sz (i + 1) :: F)) by (rewrite arun_app, T1; exact R2).
              specialize (E3 vw d0 An T2). rewrite (drun_app _ _ _ _ _ T1), S2, D1 in E3. replace (S (Z.to_nat i)) with (Z.to_nat (i + 1)) by lia.
              destruct (StoreModel.rmap _ (seq (Z.to_nat (i + 1)) n)) as [ys'|e']; [discriminate|]. injection E3 as ->. reflexivity.
      * cbv beta iota. intros l2 F2 e (-> & -> & -> & O) R2 _. split; [eauto|]. split.
        -- eapply still_app; eauto. apply still_one; [reflexivity|congruence].
        -- intros vw d0 An T. exfalso. rewrite An in O. unfold ideal in O. rewrite arun_app, T, R1 in O. discriminate O.
    + cbv beta. intros l F' e (-> & S1 & E1) R1 _. split; [eauto|]. split; auto. intros vw d0 An T. specialize (E1 vw d0 An T). cbn [root seen] in *. cbn [seq StoreModel.rmap].
      destruct (g (seen vw F (drun d0 [] t (root F))) (Z.to_nat i)) as [y|e'] eqn:G; [discriminate|]. injection E1 as ->. reflexivity.
Qed.

Variable dynamic : list str -> bool.
Variable xml_tbp : list str -> str.
Variable nbc : option nmap.
Variable mode : Z.

Lemma sget : forall s m p c, StoreModel.get_node dynamic xml_tbp nbc mode s m p c =
  if omitted dynamic mode p m then Ok None else
  rbind (locate dynamic xml_tbp nbc mode p m) (fun r =>
    match r with
    | None => Ok None
    | Some pl =>
      match mkind m with
      | KAoS =>
        match StoreModel.s_size s (c, pl) with
        | None | Some O => Ok None
        | Some n =>
          rbind (StoreModel.rmap (fun i => rbind (StoreModel.gather (mchildren m) (fun d => StoreModel.get_node dynamic xml_tbp nbc mode s d (below dynamic p m) (c ++ [(pl, i)])))
                   (fun fs => Ok (NStruct fs))) (seq 0 n)) (fun els => Ok (Some (NAoS els)))
        end
      | KStruct => rbind (StoreModel.gather (mchildren m) (fun d => StoreModel.get_node dynamic xml_tbp nbc mode s d (below dynamic p m) c)) (fun fs => Ok (Some (NStruct fs)))
      | KLeaf dt nd =>
        rbind (StoreModel.read s (c, pl) dt nd) (fun v =>
        Ok (match v with
            | None => None
            | Some v => if (nd =? 0) && PrimModel.is_empty dt v then None else Some (NLeaf (Some v))
            end))
      end
    end).
Proof. intros s [nm k cs] p c. reflexivity. Qed.

Lemma get_reads : forall m p F c t, usable F c = true -> writing F = false ->
  reads F t (get_node answer dynamic xml_tbp nbc mode m p c) (fun s => StoreModel.get_node dynamic xml_tbp nbc mode s m p (around F)).
Proof.
  intros m. meta_induction m. intros p F c t U W. cbn [get_node].
  set (m := Meta n k cs) in *.
  destruct (omitted dynamic mode p m) eqn:Om.
  { apply reads_ret. intros s. rewrite sget, Om. reflexivity. }
  destruct (locate dynamic xml_tbp nbc mode p m) as [[pl|]|e] eqn:Lo.
  2:{ apply reads_ret. intros s. rewrite sget, Om, Lo. reflexivity. }
  2:{ pose proof (locate_err _ _ _ _ _ _ _ Lo) as ->. apply reads_fail; [discriminate|]. intros s. rewrite sget, Om, Lo. reflexivity. }
  destruct k as [| |dt nd].
  - eapply reads_eq; [|apply (reads_bind _ _ F t _ _ (fun s => StoreModel.gather cs (fun d => StoreModel.get_node dynamic xml_tbp nbc mode s d (below dynamic p m) (around F)))
        (fun fs _ => Ok (Some (NStruct fs))))].
    + intros s. rewrite sget, Om, Lo. reflexivity.
    + apply gather_reads. intros d t1 D. apply IH; auto.
    + intros fs t1. now apply reads_ret.
  - set (new := S (length t)). set (r := answer t (QArray c new pl 0)).
    apply (tri_with answer _ F t (fun new => QArray c new pl 0) _ _ (FArray new pl (r_size r) 0)); fold new; fold r; auto.
    + cbn [astep]. rewrite U, W. reflexivity.
    + intros O. split; auto. split; [apply still_one; [cbn; now rewrite W|congruence]|].
      intros vw d0 An T. exfalso. unfold r in O. rewrite An in O. unfold ideal in O. rewrite T in O. discriminate.
    + intros O.
      assert (S0 : still F [(QArray c new pl 0, r)]) by (apply still_one; [cbn; now rewrite W|congruence]).
      assert (A0 : arun F [(QArray c new pl 0, r)] = Some (FArray new pl (r_size r) 0 :: F)) by (cbn [arun astep]; rewrite U, W, O; reflexivity).
      assert (S9 : forall j rE, still (FArray new pl (r_size r) j :: F) [(QEnd new, rE)]) by (intros; apply still_one; [reflexivity|congruence]).
      assert (SZ : forall vw d0, answers vw d0 -> arun [] t = Some F -> r_size r = match StoreModel.s_size (seen vw F (drun d0 [] t (root F))) (around F, pl) with Some n => Z.of_nat n | None => 0%Z end).
      { intros vw d0 An T. unfold r. rewrite An. unfold ideal. rewrite T. reflexivity. }
      assert (T0 : arun [] t = Some F -> arun [] (t ++ [(QArray c new pl 0, r)]) = Some (FArray new pl (r_size r) 0 :: F)).
      { intros T. rewrite arun_app, T. exact A0. }
      destruct (0 <? r_size r)%Z eqn:Po.
      * apply Z.ltb_lt in Po.
        assert (EE : forall t1, tri (FArray new pl (r_size r) 0 :: F) t1
           (each answer new (fun _ : unit => mbind (gather cs (fun d => get_node answer dynamic xml_tbp nbc mode d (below dynamic p m) new)) (fun fs => ret (NStruct fs)))
              (repeat tt (Z.to_nat (r_size r))))
           (fun l F' rr => (exists j, F' = FArray new pl (r_size r) j :: F) /\ still (FArray new pl (r_size r) 0 :: F) l /\
             forall vw d0, answers vw d0 -> arun [] t1 = Some (FArray new pl (r_size r) 0 :: F) ->
             rr = own (StoreModel.rmap (fun i => rbind (StoreModel.gather cs (fun d => StoreModel.get_node dynamic xml_tbp nbc mode (seen vw F (drun d0 [] t1 (root F))) d (below dynamic p m)
                  (around F ++ [(pl, i)]))) (fun fs => Ok (NStruct fs))) (seq 0 (Z.to_nat (r_size r)))))).
        { intros t1. apply (each_reads _ F new pl (r_size r) _ (fun s i => rbind (StoreModel.gather cs (fun d => StoreModel.get_node dynamic xml_tbp nbc mode s d (below dynamic p m)
                  (around F ++ [(pl, i)]))) (fun fs => Ok (NStruct fs)))); try lia.
          intros j t2 J. apply (reads_bind _ _ _ t2 _ _ (fun s => StoreModel.gather cs (fun d => StoreModel.get_node dynamic xml_tbp nbc mode s d (below dynamic p m) (around F ++ [(pl, Z.to_nat j)])))
             (fun fs _ => Ok (NStruct fs))).
          - apply (gather_reads cs (FArray new pl (r_size r) j :: F) _ (fun s d => StoreModel.get_node dynamic xml_tbp nbc mode s d (below dynamic p m) (around (FArray new pl (r_size r) j :: F)))).
            intros d t3 D. apply IH; auto. cbn [usable]. rewrite Nat.eqb_refl. cbn [andb]. apply andb_true_iff. split; [apply Z.leb_le|apply Z.ltb_lt]; lia.
          - intros fs t3. now apply reads_ret. }
        eapply tri_bind; [apply EE| |].
        -- cbv beta. intros l F' els ((j & ->) & S1 & E1) R1 _. apply tri_ret. exists (FArray new pl (r_size r) j). split; auto. split; auto. intros rE. split; auto. split.
           ++ change (still F ([(QArray c new pl 0, r)] ++ (l ++ []) ++ [(QEnd new, rE)])). rewrite app_nil_r. eapply still_app; eauto. eapply still_app; eauto.
           ++ intros vw d0 An T. specialize (E1 vw d0 An (T0 T)). rewrite (drun_app _ _ _ _ _ T), S0 in E1. rewrite (SZ vw d0 An T) in E1, Po.
              rewrite sget, Om, Lo. cbn [rbind mkind].
              destruct (StoreModel.s_size (seen vw F (drun d0 [] t (root F))) (around F, pl)) as [[|k]|]; [lia| |lia]. rewrite Nat2Z.id in E1.
              match type of E1 with _ = own ?X => change (Ok (Some (NAoS els)) = own (rbind X (fun els => Ok (Some (NAoS els))))); destruct X as [els'|]; [|discriminate E1] end.
              injection E1 as <-. reflexivity.
        -- cbv beta. intros l F' e ((j & ->) & S1 & E1) R1 _. exists (FArray new pl (r_size r) j). split; auto. split; auto. intros rE. split; auto. split.
           ++ change (still F ([(QArray c new pl 0, r)] ++ l ++ [(QEnd new, rE)])). eapply still_app; eauto. eapply still_app; eauto.
           ++ intros vw d0 An T. specialize (E1 vw d0 An (T0 T)). rewrite (drun_app _ _ _ _ _ T), S0 in E1. rewrite (SZ vw d0 An T) in E1, Po.
              rewrite sget, Om, Lo. cbn [rbind mkind].
              destruct (StoreModel.s_size (seen vw F (drun d0 [] t (root F))) (around F, pl)) as [[|k]|]; [lia| |lia]. rewrite Nat2Z.id in E1.
              match type of E1 with _ = own ?X => change (Err e = own (rbind X (fun els => Ok (Some (NAoS els))))); destruct X as [els'|]; [discriminate E1|] end.
              injection E1 as ->. reflexivity.
      * apply Z.ltb_ge in Po. apply tri_ret. exists (FArray new pl (r_size r) 0). split; auto. split; auto. intros rE. split; auto. split.
        -- change (still F ([(QArray c new pl 0, r)] ++ [(QEnd new, rE)])). eapply still_app; eauto.
        -- intros vw d0 An T. rewrite (SZ vw d0 An T) in Po. rewrite sget, Om, Lo. cbn [rbind mkind].
           destruct (StoreModel.s_size (seen vw F (drun d0 [] t (root F))) (around F, pl)) as [[|k]|]; auto. lia.
  - eapply tri_bind; [apply (reads_read F t c pl dt nd U W)| |].
    + cbv beta. intros l F' rp (-> & S1 & E1) _ _. apply tri_ret. split; auto. rewrite app_nil_r. split; auto. intros vw d0 An T. specialize (E1 vw d0 An T).
      rewrite sget, Om, Lo. cbn [rbind]. change (mkind m) with (KLeaf dt nd). cbv iota. destruct (StoreModel.read _ _ dt nd) as [v|e]; [|contradiction]. rewrite E1. reflexivity.
    + cbv beta. intros l F' e (-> & S1 & E1) _ _. split; auto. split; auto. intros vw d0 An T. specialize (E1 vw d0 An T).
      rewrite sget, Om, Lo. cbn [rbind]. change (mkind m) with (KLeaf dt nd). cbv iota. destruct (StoreModel.read _ _ dt nd) as [v|e']; [contradiction|]. subst e. reflexivity.
Qed.
Lemma get_children_reads : forall m F c t, usable F c = true -> writing F = false -> around F = [] ->
  reads F t (get_children answer dynamic xml_tbp nbc mode m c) (fun s => StoreModel.get_children dynamic xml_tbp nbc mode s m).
Proof.
  intros m F c t U W A. unfold get_children, StoreModel.get_children.
  apply (reads_bind _ _ F t _ _ (fun s => StoreModel.gather (mchildren m) (fun d => StoreModel.get_node dynamic xml_tbp nbc mode s d top [])) (fun fs _ => Ok (NStruct fs))).
  - apply gather_reads. intros d t1 _. rewrite <- A. now apply get_reads.
  - intros fs t1. now apply reads_ret.
Qed.
End Reading.
