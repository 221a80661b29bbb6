(** Where the numbers of each slice are in the result. *)
From Verif Require Import Base TreeModel TreeSpec TreeProofs ConvSpec ConvProofs3 ConvProofs4 VmapModel
  StoreModel StoreSpec StoreProofs StoreProofs4 SliceModel SliceSpec SliceProofs SliceProofs2 SliceProofs3 SliceProofs4.
From Verif Require PrimModel.

Lemma join_rows_error : forall A r n1 n2 (d1 d2 : list A) x t, length d1 = r * n1 -> length d2 = r * n2 -> x < r ->
  (t < n1 -> nth_error (join_rows r n1 n2 d1 d2) (x * (n1 + n2) + t) = nth_error d1 (x * n1 + t)) /\
  (t < n2 -> nth_error (join_rows r n1 n2 d1 d2) (x * (n1 + n2) + (n1 + t)) = nth_error d2 (x * n2 + t)).
Proof.
  intros A r n1 n2 d1 d2 x t L1 L2 X. pose proof (join_rows_length A r n1 n2 d1 d2 L1 L2) as JL. split; intros T.
  - assert (LT : x * n1 + t < length d1) by nia. assert (LJ : x * (n1 + n2) + t < length (join_rows r n1 n2 d1 d2)) by nia.
    destruct d1 as [|y d1]; [cbn in LT; lia|]. rewrite (nth_error_nth' _ y LT), (nth_error_nth' _ y LJ). f_equal.
    rewrite join_rows_nth by (auto; lia). destruct (Nat.ltb_spec t n1); [auto|lia].
  - assert (LT : x * n2 + t < length d2) by nia. assert (LJ : x * (n1 + n2) + (n1 + t) < length (join_rows r n1 n2 d1 d2)) by nia.
    destruct d2 as [|y d2]; [cbn in LT; lia|]. rewrite (nth_error_nth' _ y LT), (nth_error_nth' _ y LJ). f_equal.
    rewrite join_rows_nth by (auto; lia). destruct (Nat.ltb_spec (n1 + t) n1); [lia|]. f_equal. lia.
Qed.
Lemma append_item : forall dt nd u v w, val_ok dt nd u -> val_ok dt nd v -> append u v = Some w ->
  removelast (shape w) = removelast (shape u) /\ removelast (shape v) = removelast (shape u) /\ last (shape w) 0 = last (shape u) 0 + last (shape v) 0 /\
  forall x t, x < rows u ->
    (t < last (shape u) 0 -> nth_item w (x * last (shape w) 0 + t) = nth_item u (x * last (shape u) 0 + t)) /\
    (t < last (shape v) 0 -> nth_item w (x * last (shape w) 0 + (last (shape u) 0 + t)) = nth_item v (x * last (shape v) 0 + t)).
Proof.
  intros dt nd u v w U V E. destruct U; inversion V; subst; cbn in E; try discriminate E.
  2-4: match type of E with option_map _ ?j = _ => destruct j as [[s1 e1]|] eqn:J; [|discriminate E] end; injection E as <-; cbn [fst snd shape];
    match goal with J : join_arrays ?sh1 ?d1 ?sh2 ?d2 = Some _, N : ?sh1 <> [], P1 : prod ?sh1 = length ?d1, P2 : prod ?sh2 = length ?d2 |- _ =>
      destruct (join_arrays_ok _ _ _ _ _ _ _ N P1 P2 J) as (_ & _ & _ & _ & _ & A6 & A7 & A8 & A9 & A10) end;
    rewrite A7, removelast_app by discriminate; cbn [removelast]; rewrite app_nil_r, last_last; split; [reflexivity|]; split; [auto|]; split; [reflexivity|];
    intros x t X; unfold rows in X; cbn [shape] in X; cbn [nth_item];
    pose proof (join_rows_error _ _ _ _ _ _ x t A9 A10 X) as [I1 I2]; split; intros T; [rewrite A8, I1 by auto|rewrite A8, I2 by auto]; reflexivity.
  injection E as <-. cbn [shape removelast last nth_item]. rewrite app_length. split; [auto|]. split; [auto|]. split; [auto|]. intros x t X. unfold rows in X. cbn in X.
  assert (x = 0) as -> by lia. cbn [Nat.mul Nat.add]. split; intros T.
  - rewrite nth_error_app1 by lia. reflexivity.
  - rewrite nth_error_app2 by lia. do 2 f_equal. lia.
Qed.

Section Closed.
Variable dynamic : list str -> bool.
Variable xml_tbp : list str -> str.
Notation extend := (extend dynamic xml_tbp append).
Notation series := (series dynamic).

(** ** elements of time dependent arrays of structures *)
Lemma fold_size_series : forall p bs a, series [] p = None -> dynamic (loc_names p) = true ->
  size (fold_left extend bs a) p = list_sum (map (fun c => size c p) (a :: bs)).
Proof.
  intros p bs. induction bs as [|b bs IH] using rev_ind; intros a S D; [cbn; lia|]. rewrite fold_left_app. cbn [fold_left].
  change (a :: bs ++ [b]) with ((a :: bs) ++ [b]). rewrite map_app, list_sum_app, <- (IH a S D). cbn [SliceSpec.extend size]. rewrite S, D. cbn [map list_sum fold_right]. lia.
Qed.
Lemma fold_elem : forall p i r bs a pre b post, series [] p = None -> dynamic (loc_names p) = true -> a :: bs = pre ++ b :: post -> i < size b p ->
  let off := list_sum (map (fun c => size c p) pre) in
  at_ (fold_left extend bs a) (p ++ Elem (off + i) :: r) =
    (if Nat.eqb (length pre) 0 || dynamic (loc_names (p ++ Elem i :: r)) then at_ b (p ++ Elem i :: r) else None) /\
  size (fold_left extend bs a) (p ++ Elem (off + i) :: r) = size b (p ++ Elem i :: r).
Proof.
  intros p i r bs. induction bs as [|c bs IH] using rev_ind; intros a pre b post S D E I off.
  - destruct pre as [|x pre]; [|destruct pre; discriminate E]. injection E as <- <-. cbn. auto.
  - rewrite fold_left_app. cbn [fold_left]. cbn [SliceSpec.extend at_ size]. rewrite (series_at dynamic p (off + i) r S D), (fold_size_series p bs a S D).
    change (a :: bs ++ [c]) with ((a :: bs) ++ [c]) in E. destruct post as [|z post] using rev_ind.
    + apply app_inj_tail in E. destruct E as [E <-]. subst pre. fold off. destruct (Nat.ltb_spec (off + i) off); [lia|]. replace (off + i - off) with i by lia.
      cbn [length Nat.eqb orb]. rewrite (loc_names_elem p (off + i) i r). auto.
    + clear IHpost. change (pre ++ b :: post ++ [z]) with (pre ++ (b :: post) ++ [z]) in E. rewrite app_assoc in E. apply app_inj_tail in E. destruct E as [E <-].
      destruct (IH a pre b post S D E I) as [H1 H2]. fold off in H1, H2.
      assert (LT : off + i < list_sum (map (fun c => size c p) (a :: bs))).
      { rewrite E, map_app, list_sum_app. cbn [map list_sum fold_right]. unfold off. fold (list_sum (map (fun c => size c p) post)). lia. }
      destruct (Nat.ltb_spec (off + i) (list_sum (map (fun c => size c p) (a :: bs)))); [|lia]. auto.
Qed.

(** ** arrays with a time dimension *)
Variable m : meta.
Hypothesis W : wf_meta m.
Notation fits_all := (fits_all dynamic xml_tbp).

Lemma fold_times : forall l bs a, series [] l = None -> has_time dynamic xml_tbp l = true -> proper m a -> Forall (proper m) bs -> fits_all a bs ->
  (forall b v m1 dt nd, In b (a :: bs) -> at_ b l = Some v -> loc_ok m l m1 -> mkind m1 = KLeaf dt nd -> val_ok dt nd v) /\
  ((exists w m1 dt nd, at_ (fold_left extend bs a) l = Some w /\ loc_ok m l m1 /\ mkind m1 = KLeaf dt nd /\ val_ok dt nd w /\
     last (shape w) 0 = list_sum (map (fun c => times c l) (a :: bs)) /\
     forall pre b post v, a :: bs = pre ++ b :: post -> at_ b l = Some v ->
       removelast (shape w) = removelast (shape v) /\
       forall x t, x < rows v -> t < times b l -> nth_item w (x * last (shape w) 0 + (list_sum (map (fun c => times c l) pre) + t)) = nth_item v (x * times b l + t)) \/
   (at_ (fold_left extend bs a) l = None /\ forall b, In b (a :: bs) -> at_ b l = None)).
Proof.
  intros l bs. induction bs as [|c bs IH] using rev_ind; intros a S HT PA PB FA.
  - split.
    + intros b v m1 dt nd [<-|[]] E L KL. destruct (pr_leaf _ _ PA _ _ E) as (m2 & dt2 & nd2 & L2 & KL2 & V & _).
      assert (m2 = m1) as -> by (eapply loc_ok_fun; eauto). congruence.
    + cbn [fold_left]. destruct (at_ a l) as [v|] eqn:E.
      * left. destruct (pr_leaf _ _ PA _ _ E) as (m1 & dt & nd & L & KL & V & _). exists v, m1, dt, nd. split; auto. split; auto. split; auto. split; auto.
        cbn [map list_sum fold_right]. unfold times at 1. rewrite E. split; [lia|]. intros pre b post v' EQ EB. destruct pre as [|x pre]; [|destruct pre; discriminate EQ].
        injection EQ as <- <-. rewrite E in EB. injection EB as <-. split; [reflexivity|]. intros x t X T. unfold times. rewrite E. reflexivity.
      * right. split; auto. intros b [<-|[]]. auto.
  - rewrite fold_left_app. cbn [fold_left]. apply Forall_app in PB. destruct PB as [PB PC]. inversion PC as [|? ? PC1 _]; subst. clear PC.
    assert (FA' : fits_all a bs).
    { intros pre b post ->. apply (FA pre b (post ++ [c])). rewrite <- app_assoc. reflexivity. }
    pose proof (FA bs c [] eq_refl) as FC. destruct (IH a S HT PA PB FA') as [IV IT].
    assert (VC : forall v m1 dt nd, at_ c l = Some v -> loc_ok m l m1 -> mkind m1 = KLeaf dt nd -> val_ok dt nd v).
    { intros v m1 dt nd E L KL. destruct (pr_leaf _ _ PC1 _ _ E) as (m2 & dt2 & nd2 & L2 & KL2 & V & _).
      assert (m2 = m1) as -> by (eapply loc_ok_fun; eauto). congruence. }
    split.
    + intros b v m1 dt nd I E L KL. change (a :: bs ++ [c]) with ((a :: bs) ++ [c]) in I. apply in_app_or in I. destruct I as [I|[<-|[]]]; eauto.
    + assert (EX : at_ (extend (fold_left extend bs a) c) l = joined append (at_ (fold_left extend bs a) l) (at_ c l)) by (cbn [SliceSpec.extend at_]; now rewrite S, HT).
      change (a :: bs ++ [c]) with ((a :: bs) ++ [c]). rewrite map_app, list_sum_app. change (list_sum (map (fun c => times c l) [c])) with (times c l + 0). rewrite Nat.add_0_r.
      destruct IT as [(u & m1 & dt & nd & EU & L & KL & VU & LU & HU)|[EU NO]].
      * left. destruct (at_ c l) as [v|] eqn:EC.
        -- destruct (append u v) as [w|] eqn:AP; [|destruct (FC l u v EU EC HT AP)]. pose proof (VC v m1 dt nd eq_refl L KL) as VV.
           exists w, m1, dt, nd. split; [rewrite EX, EU; exact AP|]. split; auto. split; auto. split; [exact (proj1 (append_ok dt nd u v w VU VV AP))|].
           destruct (append_item dt nd u v w VU VV AP) as (R1 & R2 & R3 & R4). assert (TC : times c l = last (shape v) 0) by (unfold times; now rewrite EC). rewrite TC, <- LU. split; [exact R3|].
           intros pre b post v' EQ EB. destruct post as [|z post] using rev_ind.
           ++ apply app_inj_tail in EQ. destruct EQ as [EQ <-]. rewrite EC in EB. injection EB as <-. split; [congruence|]. intros x t X T. rewrite <- EQ, <- LU. unfold times in T |- *. rewrite EC in T |- *. apply (R4 x t); auto. unfold rows in *. now rewrite <- R2.
           ++ clear IHpost. change (pre ++ b :: post ++ [z]) with (pre ++ (b :: post) ++ [z]) in EQ. rewrite app_assoc in EQ. apply app_inj_tail in EQ. destruct EQ as [EQ <-].
              destruct (HU pre b post v' EQ EB) as [H1 H2]. split; [congruence|]. intros x t X T. rewrite <- (H2 x t X T).
              apply (R4 x (list_sum (map (fun c => times c l) pre) + t)); [unfold rows in *; now rewrite H1|]. rewrite LU, EQ, map_app, list_sum_app. cbn [map list_sum fold_right].
              fold (list_sum (map (fun c => times c l) post)). lia.
        -- exists u, m1, dt, nd. split; [rewrite EX, EU; reflexivity|]. split; auto. split; auto. split; auto. assert (TC : times c l = 0) by (unfold times; now rewrite EC). rewrite TC, Nat.add_0_r. split; [exact LU|].
           intros pre b post v' EQ EB. destruct post as [|z post] using rev_ind.
           ++ apply app_inj_tail in EQ. destruct EQ as [_ <-]. congruence.
           ++ clear IHpost. change (pre ++ b :: post ++ [z]) with (pre ++ (b :: post) ++ [z]) in EQ. rewrite app_assoc in EQ. apply app_inj_tail in EQ. destruct EQ as [EQ <-].
              apply (HU pre b post v' EQ EB).
      * assert (Z : list_sum (map (fun c => times c l) (a :: bs)) = 0).
        { clear - NO. induction (a :: bs) as [|x y IHy]; auto. cbn [map list_sum fold_right]. fold (list_sum (map (fun c => times c l) y)). rewrite IHy by (intros b I; apply NO; now right).
          unfold times. rewrite (NO x (or_introl eq_refl)). reflexivity. }
        destruct (at_ c l) as [v|] eqn:EC.
        -- left. destruct (pr_leaf _ _ PC1 _ _ EC) as (m1 & dt & nd & L & KL & V & _). exists v, m1, dt, nd. split; [rewrite EX, EU; reflexivity|]. split; auto. split; auto. split; auto.
           assert (TC : times c l = last (shape v) 0) by (unfold times; now rewrite EC). rewrite Z, TC. split; [reflexivity|]. intros pre b post v' EQ EB. destruct post as [|z post] using rev_ind.
           ++ apply app_inj_tail in EQ. destruct EQ as [EQ <-]. rewrite EC in EB. injection EB as <-. split; [reflexivity|]. intros x t X T. rewrite <- EQ, Z.
              unfold times. rewrite EC. reflexivity.
           ++ clear IHpost. change (pre ++ b :: post ++ [z]) with (pre ++ (b :: post) ++ [z]) in EQ. rewrite app_assoc in EQ. apply app_inj_tail in EQ. destruct EQ as [EQ <-].
              rewrite (NO b) in EB; [discriminate EB|]. rewrite EQ. apply in_or_app. right. now left.
        -- right. split; [rewrite EX, EU; reflexivity|]. intros b I. apply in_app_or in I. destruct I as [I|[<-|[]]]; auto.
Qed.

(** ** data outside time slices: only the first put_slice stores what does not depend on time *)
Lemma fold_static : forall l bs a, series [] l = None -> dynamic (loc_names l) = false -> at_ (fold_left extend bs a) l = at_ a l.
Proof.
  intros l bs. induction bs as [|b bs IH]; intros a S D; cbn [fold_left]; auto. rewrite (IH (extend a b) S D). cbn [SliceSpec.extend at_]. unfold has_time. rewrite S, D. reflexivity.
Qed.
End Closed.
