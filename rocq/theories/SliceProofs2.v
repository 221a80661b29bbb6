(** Contents of an occurrence and how they are extended: appending arrays, locations of appended elements. *)
From Verif Require Import Base TreeModel TreeSpec TreeProofs ConvSpec ConvProofs3 ConvProofs4 VmapModel
  StoreModel StoreSpec SliceModel SliceSpec.
From Verif Require PrimModel ResampleProofs.

(** * Arrays *)
Lemma join_rows_length : forall A r n1 n2 (d1 d2 : list A), length d1 = r * n1 -> length d2 = r * n2 -> length (join_rows r n1 n2 d1 d2) = r * (n1 + n2).
Proof.
  intros A. induction r as [|r IH]; intros n1 n2 d1 d2 L1 L2; cbn [join_rows]; auto. cbn in L1, L2.
  rewrite !app_length, !firstn_length, IH by (rewrite skipn_length; lia). cbn. lia.
Qed.
(** row x of the result: the row of the first array, then the row of the second *)
Lemma join_rows_nth : forall A r n1 n2 (d1 d2 : list A) x t dflt, length d1 = r * n1 -> length d2 = r * n2 -> x < r -> t < n1 + n2 ->
  nth (x * (n1 + n2) + t) (join_rows r n1 n2 d1 d2) dflt = if t <? n1 then nth (x * n1 + t) d1 dflt else nth (x * n2 + (t - n1)) d2 dflt.
Proof.
  intros A. induction r as [|r IH]; intros n1 n2 d1 d2 x t dflt L1 L2 X T; [lia|]. cbn [join_rows]. cbn in L1, L2.
  assert (F1 : length (firstn n1 d1) = n1) by (rewrite firstn_length; lia). assert (F2 : length (firstn n2 d2) = n2) by (rewrite firstn_length; lia).
  assert (N : forall (d : list A) n i, n <= length d -> i < n -> nth i (firstn n d) dflt = nth i d dflt).
  { intros d n i Hn Hi. rewrite <- (firstn_skipn n d) at 2. rewrite app_nth1; auto. rewrite firstn_length. lia. }
  assert (N2 : forall (d : list A) n i, n <= length d -> nth i (skipn n d) dflt = nth (n + i) d dflt).
  { intros d n i Hn. rewrite <- (firstn_skipn n d) at 2. rewrite app_nth2; rewrite firstn_length; [|lia]. f_equal. lia. }
  destruct x as [|x].
  - cbn [Nat.mul Nat.add]. destruct (Nat.ltb_spec t n1) as [H|H].
    + rewrite app_nth1 by lia. apply N; lia.
    + rewrite app_nth2 by lia. rewrite F1. rewrite app_nth1 by lia. apply N; lia.
  - rewrite app_nth2 by (rewrite F1; lia). rewrite F1. rewrite app_nth2 by (rewrite F2; lia). rewrite F2.
    replace (S x * (n1 + n2) + t - n1 - n2) with (x * (n1 + n2) + t) by (cbn; lia).
    rewrite IH by (try rewrite skipn_length; lia). destruct (t <? n1); rewrite N2 by lia; f_equal; cbn; lia.
Qed.

Lemma prod_last : forall sh, sh <> [] -> prod sh = prod (removelast sh) * last sh 0.
Proof. intros sh H. rewrite (app_removelast_last 0 H) at 1. rewrite ResampleProofs.prod_app. cbn. lia. Qed.
Lemma list_eqb_nat : forall a b, list_eqb Nat.eqb a b = true -> a = b.
Proof.
  induction a as [|x a IH]; intros [|y b] H; cbn in H; try discriminate; auto. apply andb_true_iff in H. destruct H as [H1 H2].
  apply Nat.eqb_eq in H1. f_equal; auto.
Qed.

Lemma join_arrays_ok : forall A sh1 (d1 : list A) sh2 d2 sh d, sh1 <> [] -> prod sh1 = length d1 -> prod sh2 = length d2 ->
  join_arrays sh1 d1 sh2 d2 = Some (sh, d) ->
  length sh = length sh1 /\ length sh2 = length sh1 /\ sh <> [] /\ prod sh = length d /\ (d1 <> [] -> d <> []) /\
  removelast sh1 = removelast sh2 /\ sh = removelast sh1 ++ [last sh1 0 + last sh2 0] /\
  d = join_rows (prod (removelast sh1)) (last sh1 0) (last sh2 0) d1 d2 /\
  length d1 = prod (removelast sh1) * last sh1 0 /\ length d2 = prod (removelast sh1) * last sh2 0.
Proof.
  intros A sh1 d1 sh2 d2 sh d NE P1 P2 J. unfold join_arrays in J. destruct (_ && _) eqn:E; [|discriminate]. injection J as <- <-.
  apply andb_true_iff in E. destruct E as [E1 E2]. apply Nat.eqb_eq in E1. apply list_eqb_nat in E2.
  assert (NE2 : sh2 <> []) by (destruct sh2; [destruct sh1; [congruence|discriminate]|discriminate]).
  rewrite (prod_last sh1 NE) in P1. rewrite (prod_last sh2 NE2), <- E2 in P2.
  assert (LR : length (removelast sh1) + 1 = length sh1).
  { rewrite (app_removelast_last 0 NE) at 2. rewrite app_length. reflexivity. }
  assert (JL : length (join_rows (prod (removelast sh1)) (last sh1 0) (last sh2 0) d1 d2) = prod (removelast sh1) * (last sh1 0 + last sh2 0)).
  { apply join_rows_length; lia. }
  split; [rewrite app_length; cbn; lia|]. split; [auto|]. split; [destruct (removelast sh1); discriminate|].
  split; [rewrite ResampleProofs.prod_app, JL; cbn; lia|].
  split; [intros D E; rewrite E in JL; cbn in JL; destruct d1 as [|y d1]; [congruence|]; cbn [length] in P1; nia|].
  auto 10.
Qed.

Lemma append_ok : forall dt nd u v w, val_ok dt nd u -> val_ok dt nd v -> append u v = Some w ->
  val_ok dt nd w /\ (filled_value u -> filled_value w) /\ nd <> 0.
Proof.
  intros dt nd u v w U V E. destruct U; inversion V; subst; cbn in E; try discriminate E.
  2-4: match type of E with option_map _ ?j = _ => destruct j as [[s1 e1]|] eqn:J; [|discriminate E] end; injection E as <-; cbn [fst snd];
    match goal with J : join_arrays ?sh1 ?d1 ?sh2 ?d2 = Some _, N : ?sh1 <> [], P1 : prod ?sh1 = length ?d1, P2 : prod ?sh2 = length ?d2 |- _ =>
      destruct (join_arrays_ok _ _ _ _ _ _ _ N P1 P2 J) as (A1 & A2 & A3 & A4 & A5 & _) end;
    try rewrite A2; rewrite <- A1; split; [now constructor|]; split; [exact A5|destruct s1; [congruence|discriminate]].
  injection E as <-. split; [constructor|]. split; [|discriminate]. cbn. intros N H. apply app_eq_nil in H. tauto.
Qed.

(** * Trees as contents *)
Lemma filled_b : forall v, is_filled v = true <-> filled_value v.
Proof. intros [x|x|x|x y|[|a l]|sh [|a l]|sh [|a l]|sh [|a l]]; cbn; split; intros H; auto; try discriminate; congruence. Qed.

Lemma look_node_at : forall l m n m' n', wf_meta m -> node_at m n l m' n' -> look n l = Some n'.
Proof.
  induction l as [|s l IH]; intros m n m' n' W H; inversion H; subst; cbn; auto.
  - match goal with X : alookup _ _ = Some _ |- _ => rewrite X end. inversion W; subst. eapply IH; [|eauto]. auto.
  - match goal with X : nth_error _ _ = Some _ |- _ => rewrite X end. eapply IH; [|eauto]. inversion W; subst. constructor; auto. intros; discriminate.
Qed.
Lemma node_at_look : forall l m n n', conf m n -> look n l = Some n' -> exists m', node_at m n l m' n'.
Proof.
  induction l as [|s l IH]; intros m n n' CF H; cbn in H.
  - destruct n; injection H as <-; exists m; constructor.
  - destruct s as [c|i].
    + destruct n as [fs| |]; try discriminate H. destruct (alookup c fs) as [x|] eqn:A; [|discriminate H].
      inversion CF as [| |? ? ? CH CK _|]; subst. assert (I : In c (akeys fs)) by (apply alookup_In in A; apply (List.in_map fst) in A; exact A).
      apply CK in I. apply List.in_map_iff in I. destruct I as (d & <- & D). destruct (IH d x n' (CH d x D A) H) as (m' & N).
      exists m'. econstructor; eauto.
    + destruct n as [|els|]; try discriminate H. destruct (nth_error els i) as [x|] eqn:A; [|discriminate H].
      inversion CF as [| | |? ? ? CE]; subst. destruct (IH _ x n' (CE x (nth_error_In _ _ A)) H) as (m' & N).
      exists m'. econstructor; eauto.
Qed.

Lemma contents_leaf : forall m n l v, wf_meta m -> conf m n -> (at_ (contents_of n) l = Some v <-> leaf_at m n l v).
Proof.
  intros m n l v W CF. cbn. split.
  - destruct (look n l) as [[fs|els|[w|]]|] eqn:L; try discriminate. destruct (is_filled w) eqn:F; [|discriminate]. intros E. injection E as ->.
    destruct (node_at_look l m n _ CF L) as (m' & N). exists m'. split; [|split; [auto|now apply filled_b]].
    apply node_at_conf in N; auto. inversion N; subst. do 2 eexists. reflexivity.
  - intros (m' & K & N & F). rewrite (look_node_at l m n m' _ W N). apply filled_b in F. now rewrite F.
Qed.
Lemma contents_size : forall m n l k, wf_meta m -> conf m n -> (size (contents_of n) l = k /\ k > 0 <-> aos_at m n l k).
Proof.
  intros m n l k W CF. cbn. split.
  - intros [E G]. destruct (look n l) as [[fs|els|o]|] eqn:L; try lia.
    destruct (node_at_look l m n _ CF L) as (m' & N). exists m', els. split; auto. split; auto.
    apply node_at_conf in N; auto. inversion N; subst. reflexivity.
  - intros (m' & els & N & K & E & G). rewrite (look_node_at l m n m' _ W N). auto.
Qed.

(** * Proper contents *)
Definition inside (c : contents) (l : loc) : Prop := forall a i b, l = a ++ Elem i :: b -> i < size c a.
Record proper (m : meta) (c : contents) : Prop := {
  pr_leaf : forall l v, at_ c l = Some v -> exists m1 dt nd, loc_ok m l m1 /\ mkind m1 = KLeaf dt nd /\ val_ok dt nd v /\ filled_value v /\
    (nd = 0 -> PrimModel.is_empty dt v = false) /\ inside c l;
  pr_size : forall l, size c l <> 0 -> exists m1, loc_ok m l m1 /\ mkind m1 = KAoS /\ inside c l }.

Lemma contents_proper : forall m n, wf_meta m -> conf m n -> settled m n -> proper m (contents_of n).
Proof.
  intros m n W CF ST. assert (INS : forall l m' n', node_at m n l m' n' -> inside (contents_of n) l).
  { intros l m' n' N a i b ->. apply node_at_split in N. destruct N as (m1 & n1 & N1 & N2). inversion N2; subst.
    cbn. rewrite (look_node_at a m n _ _ W N1). apply nth_error_Some. congruence. }
  split.
  - intros l v E. apply (contents_leaf m) in E; auto. destruct E as (m' & (dt & nd & K) & N & F). exists m', dt, nd.
    split; [eapply node_at_loc_ok; eauto|]. split; auto. split; [apply node_at_conf in N; auto; inversion N; subst; cbn in K; congruence|]. split; auto.
    split; [intros ->; eapply ST; eauto|eauto].
  - intros l E. assert (A : aos_at m n l (size (contents_of n) l)) by (apply contents_size; auto; split; auto; lia).
    destruct A as (m' & els & N & K & _). exists m'. split; [eapply node_at_loc_ok; eauto|]. split; eauto.
Qed.

Lemma inside_prefix : forall c a b, inside c (a ++ b) -> inside c a.
Proof. intros c a b H a' i b' ->. apply (H a' i (b' ++ b)). now rewrite <- app_assoc. Qed.
Lemma outside : forall m c p j r, proper m c -> size c p <= j -> at_ c (p ++ Elem j :: r) = None /\ size c (p ++ Elem j :: r) = 0.
Proof.
  intros m c p j r P L. split.
  - destruct (at_ c (p ++ Elem j :: r)) as [v|] eqn:E; auto. destruct (pr_leaf _ _ P _ _ E) as (m1 & dt & nd & _ & _ & _ & _ & _ & I). specialize (I p j r eq_refl). lia.
  - destruct (Nat.eq_dec (size c (p ++ Elem j :: r)) 0) as [E|E]; auto. destruct (pr_size _ _ P _ E) as (m1 & _ & _ & I). specialize (I p j r eq_refl). lia.
Qed.

Lemma loc_ok_elem : forall m a i j b m', loc_ok m (a ++ Elem i :: b) m' -> loc_ok m (a ++ Elem j :: b) m'.
Proof.
  intros m a i j b m' H. apply loc_ok_split in H. destruct H as (m1 & A & B). eapply loc_ok_app; eauto. inversion B; subst. now constructor.
Qed.
Lemma loc_names_elem : forall a i j b, loc_names (a ++ Elem i :: b) = loc_names (a ++ Elem j :: b).
Proof. intros. unfold loc_names. now rewrite !flat_map_app. Qed.

Section Extend.
Variable dynamic : list str -> bool.
Variable xml_tbp : list str -> str.
Notation series := (series dynamic).
Notation extend := (extend dynamic xml_tbp append).

Lemma series_app : forall a pre b, series pre (a ++ b) = match series pre a with Some (p, i, r) => Some (p, i, r ++ b) | None => series (pre ++ a) b end.
Proof.
  induction a as [|s a IH]; intros pre b; cbn [app SliceSpec.series].
  - now rewrite app_nil_r.
  - destruct s as [c|i].
    + rewrite IH, <- app_assoc. reflexivity.
    + destruct (dynamic (loc_names pre)); [reflexivity|]. rewrite IH, <- app_assoc. reflexivity.
Qed.
Lemma series_split : forall l pre p i r, series pre l = Some (p, i, r) ->
  exists d, p = pre ++ d /\ l = d ++ Elem i :: r /\ dynamic (loc_names p) = true /\ series pre d = None.
Proof.
  induction l as [|s l IH]; intros pre p i r H; cbn [SliceSpec.series] in H; [discriminate|]. destruct s as [c|j].
  - apply IH in H. destruct H as (d & -> & -> & D & N). exists (Child c :: d). rewrite <- app_assoc in *. auto.
  - destruct (dynamic (loc_names pre)) eqn:E.
    + injection H as <- <- <-. exists []. rewrite app_nil_r. auto.
    + apply IH in H. destruct H as (d & -> & -> & D & N). exists (Elem j :: d). rewrite <- app_assoc in *. cbn [SliceSpec.series]. rewrite E. auto.
Qed.
Lemma series_top : forall l p i r, series [] l = Some (p, i, r) -> l = p ++ Elem i :: r /\ dynamic (loc_names p) = true /\ series [] p = None.
Proof. intros l p i r H. apply series_split in H. destruct H as (d & -> & -> & D & N). auto. Qed.
Lemma series_at : forall p i r, series [] p = None -> dynamic (loc_names p) = true -> series [] (p ++ Elem i :: r) = Some (p, i, r).
Proof. intros p i r N D. rewrite series_app, N. cbn [app SliceSpec.series]. now rewrite D. Qed.

(** where the node at l of the appended IDS is in the result *)
Definition slid (a : contents) (l : loc) : loc :=
  match series [] l with Some (p, i, r) => p ++ Elem (size a p + i) :: r | None => l end.

Lemma slid_series : forall a l, series [] (slid a l) = match series [] l with Some (p, i, r) => Some (p, size a p + i, r) | None => None end.
Proof.
  intros a l. unfold slid. destruct (series [] l) as [[[p i] r]|] eqn:E; auto. apply series_top in E. destruct E as (-> & D & N). now apply series_at.
Qed.
Lemma slid_inj : forall a l l', slid a l = slid a l' -> l = l'.
Proof.
  intros a l l' E. pose proof (slid_series a l) as S1. pose proof (slid_series a l') as S2. rewrite <- E, S1 in S2.
  unfold slid in E. destruct (series [] l) as [[[p i] r]|] eqn:E1; destruct (series [] l') as [[[p' i'] r']|] eqn:E2; try discriminate S2; auto.
  injection S2 as <- Hi <-. apply series_top in E1. apply series_top in E2. destruct E1 as (-> & _), E2 as (-> & _). assert (i = i') by lia. now subst.
Qed.
Lemma slid_names : forall a l, loc_names (slid a l) = loc_names l.
Proof.
  intros a l. unfold slid. destruct (series [] l) as [[[p i] r]|] eqn:E; auto. apply series_top in E. destruct E as (-> & _). apply loc_names_elem.
Qed.
Lemma slid_loc_ok : forall a m l m', loc_ok m l m' -> loc_ok m (slid a l) m'.
Proof.
  intros a m l m' H. unfold slid. destruct (series [] l) as [[[p i] r]|] eqn:E; auto. apply series_top in E. destruct E as (-> & _). eapply loc_ok_elem; eauto.
Qed.
Lemma unslid : forall a l p i r, series [] l = Some (p, i, r) -> size a p <= i -> l = slid a (p ++ Elem (i - size a p) :: r).
Proof.
  intros a l p i r H G. apply series_top in H. destruct H as (-> & D & N). unfold slid. rewrite series_at; auto. do 2 f_equal. f_equal. lia.
Qed.

Lemma extend_slid_at : forall a b l, at_ (extend a b) (slid a l) =
  match series [] l with
  | Some _ => if dynamic (loc_names l) then at_ b l else None
  | None => if has_time dynamic xml_tbp l then joined append (at_ a l) (at_ b l) else if dynamic (loc_names l) then newer (at_ a l) (at_ b l) else at_ a l
  end.
Proof.
  intros a b l. cbn [SliceSpec.extend at_]. rewrite slid_series, slid_names. destruct (series [] l) as [[[p i] r]|] eqn:E.
  - apply series_top in E. destruct E as (-> & D & N). destruct (Nat.ltb_spec (size a p + i) (size a p)); [lia|].
    replace (size a p + i - size a p) with i by lia. reflexivity.
  - unfold slid. now rewrite E.
Qed.
Lemma extend_slid_size : forall a b l, size (extend a b) (slid a l) =
  match series [] l with
  | Some _ => size b l
  | None => if dynamic (loc_names l) then size a l + size b l else if size a l =? 0 then size b l else size a l
  end.
Proof.
  intros a b l. cbn [SliceSpec.extend size]. rewrite slid_series. destruct (series [] l) as [[[p i] r]|] eqn:E.
  - apply series_top in E. destruct E as (-> & D & N). destruct (Nat.ltb_spec (size a p + i) (size a p)); [lia|].
    replace (size a p + i - size a p) with i by lia. reflexivity.
  - unfold slid. now rewrite E.
Qed.

Lemma grow_a : forall a b l, inside a l -> inside (extend a b) l.
Proof.
  intros a b l H p i r ->. pose proof (H p i r eq_refl) as L. apply inside_prefix in H. cbn [SliceSpec.extend size].
  destruct (series [] p) as [[[q j] t]|] eqn:E.
  - apply series_top in E. destruct E as (-> & _). specialize (H q j t eq_refl). destruct (Nat.ltb_spec j (size a q)); [auto|lia].
  - destruct (dynamic (loc_names p)); [lia|]. destruct (Nat.eqb_spec (size a p) 0); lia.
Qed.
Lemma grow_b : forall a b l, same_sizes dynamic a b -> inside b l -> inside (extend a b) (slid a l).
Proof.
  intros a b l SS H p i r E.
  assert (STAT : forall q j t, l = q ++ Elem j :: t -> series [] q = None -> dynamic (loc_names q) = false -> j < size (extend a b) q).
  { intros q j t EQ N D. specialize (H q j t EQ). cbn [SliceSpec.extend size]. rewrite N, D. destruct (Nat.eqb_spec (size a q) 0); auto.
    rewrite (SS q N D); auto. lia. }
  unfold slid in E. destruct (series [] l) as [[[q j] t]|] eqn:S.
  - apply series_top in S. destruct S as (-> & D & N).
    assert (SQ : series [] (p ++ Elem i :: r) = Some (q, size a q + j, t)) by (rewrite <- E; now apply series_at).
    rewrite series_app in SQ. destruct (series [] p) as [[[q' j'] t']|] eqn:SP.
    + injection SQ as -> -> <-. apply series_top in SP. destruct SP as (-> & _ & _).
      cbn [SliceSpec.extend size]. rewrite series_at; auto. destruct (Nat.ltb_spec (size a q + j) (size a q)); [lia|]. replace (size a q + j - size a q) with j by lia.
      rewrite <- app_assoc in E. apply app_inv_head in E. cbn in E. apply (H _ i r). rewrite <- app_assoc. reflexivity.
    + cbn [app SliceSpec.series] in SQ. destruct (dynamic (loc_names p)) eqn:DP.
      * injection SQ as -> -> ->. cbn [SliceSpec.extend size]. rewrite N, D. specialize (H q j t eq_refl). lia.
      * apply series_split in SQ. destruct SQ as (d & -> & -> & _ & _). apply (STAT p i (d ++ Elem j :: t)); auto. rewrite <- !app_assoc. reflexivity.
  - subst l. rewrite series_app in S. destruct (series [] p) as [[[q' j'] t']|] eqn:SP; [discriminate|]. cbn [app SliceSpec.series] in S.
    destruct (dynamic (loc_names p)) eqn:DP; [discriminate|]. eapply STAT; eauto.
Qed.

Lemma extend_proper : forall m a b, wf_meta m -> proper m a -> proper m b -> same_sizes dynamic a b -> proper m (extend a b).
Proof.
  intros m a b W PA PB SS.
  assert (FA : forall l v, at_ a l = Some v -> exists m1 dt nd, loc_ok m l m1 /\ mkind m1 = KLeaf dt nd /\ val_ok dt nd v /\ filled_value v /\
    (nd = 0 -> PrimModel.is_empty dt v = false) /\ inside (extend a b) l).
  { intros l v E. destruct (pr_leaf _ _ PA _ _ E) as (m1 & dt & nd & A1 & A2 & A3 & A4 & A5 & A6). exists m1, dt, nd. auto 10 using grow_a. }
  assert (FB : forall l v, at_ b l = Some v -> exists m1 dt nd, loc_ok m (slid a l) m1 /\ mkind m1 = KLeaf dt nd /\ val_ok dt nd v /\ filled_value v /\
    (nd = 0 -> PrimModel.is_empty dt v = false) /\ inside (extend a b) (slid a l)).
  { intros l v E. destruct (pr_leaf _ _ PB _ _ E) as (m1 & dt & nd & A1 & A2 & A3 & A4 & A5 & A6). exists m1, dt, nd. auto 10 using grow_b, slid_loc_ok. }
  split.
  - intros l v E. cbn [SliceSpec.extend at_] in E. destruct (series [] l) as [[[p i] r]|] eqn:S.
    + destruct (Nat.ltb_spec i (size a p)) as [H|H]; [now apply FA|]. destruct (dynamic (loc_names l)); [|discriminate]. rewrite (unslid a l p i r S H). now apply FB.
    + assert (SL : slid a l = l) by (unfold slid; now rewrite S).
      assert (FB' : at_ b l = Some v -> exists m1 dt nd, loc_ok m l m1 /\ mkind m1 = KLeaf dt nd /\ val_ok dt nd v /\ filled_value v /\
        (nd = 0 -> PrimModel.is_empty dt v = false) /\ inside (extend a b) l) by (intros X; rewrite <- SL; now apply FB).
      destruct (has_time dynamic xml_tbp l).
      * unfold joined in E. destruct (at_ a l) as [u|] eqn:EA; [|now apply FB']. destruct (at_ b l) as [w|] eqn:EB; [|injection E as <-; now apply FA].
        destruct (pr_leaf _ _ PA _ _ EA) as (m1 & dt & nd & A1 & A2 & A3 & A4 & A5 & A6). destruct (pr_leaf _ _ PB _ _ EB) as (m2 & dt2 & nd2 & B1 & B2 & B3 & B4 & B5 & B6).
        assert (m2 = m1) as -> by (eapply loc_ok_fun; eauto). rewrite A2 in B2. injection B2 as <- <-.
        destruct (append_ok _ _ _ _ _ A3 B3 E) as (V & F & ND). exists m1, dt, nd. split; auto. split; auto. split; auto. split; auto. split; [contradiction|]. now apply grow_a.
      * destruct (dynamic (loc_names l)); [|now apply FA]. unfold newer in E. destruct (at_ b l) as [w|] eqn:EB; [injection E as ->; now apply FB'|now apply FA].
  - intros l E.
    assert (GA : size a l <> 0 -> exists m1, loc_ok m l m1 /\ mkind m1 = KAoS /\ inside (extend a b) l).
    { intros X. destruct (pr_size _ _ PA _ X) as (m1 & A1 & A2 & A3). exists m1. auto using grow_a. }
    assert (GB : forall l', size b l' <> 0 -> exists m1, loc_ok m (slid a l') m1 /\ mkind m1 = KAoS /\ inside (extend a b) (slid a l')).
    { intros l' X. destruct (pr_size _ _ PB _ X) as (m1 & A1 & A2 & A3). exists m1. auto using grow_b, slid_loc_ok. }
    cbn [SliceSpec.extend size] in E. destruct (series [] l) as [[[p i] r]|] eqn:S.
    + destruct (Nat.ltb_spec i (size a p)) as [H|H]; [now apply GA|]. rewrite (unslid a l p i r S H). now apply GB.
    + assert (SL : slid a l = l) by (unfold slid; now rewrite S).
      destruct (Nat.eq_dec (size a l) 0) as [Z|Z]; [|now apply GA]. rewrite <- SL. apply GB. rewrite Z in E. cbn in E. destruct (dynamic (loc_names l)); exact E.
Qed.
End Extend.
