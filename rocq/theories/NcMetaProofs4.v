(** Proofs for C36, part 4: dictionaries with sensible references and without circles are accepted. *)
From Verif Require Import Base TreeModel TreeSpec TreeProofs NcMetaModel NcMetaSpec NcMetaProofs NcMetaProofs2 NcMetaProofs3.
From Coq Require Import Lia ListDec.

Lemma last_nth_error : forall A (l : list A) d, l <> [] -> nth_error l (length l - 1) = Some (last l d).
Proof.
  induction l as [|x t IH]; intros d N; [congruence|]. destruct t as [|y t]; [reflexivity|]. cbn [length]. replace (S (S (length t)) - 1) with (S (length (y :: t) - 1)) by (cbn; lia).
  cbn [nth_error]. rewrite (IH d) by discriminate. reflexivity.
Qed.

(** every node comes after its array of structures *)
Fixpoint ordered (pre : list path) (vs : list visit) : Prop :=
  match vs with
  | [] => True
  | v :: t => match va v with Some q => In q pre | None => True end /\ ordered (if entryb v then vp v :: pre else pre) t
  end.
Lemma ordered_mono : forall vs a b, incl a b -> ordered a vs -> ordered b vs.
Proof.
  induction vs as [|v t IH]; intros a b I H; cbn in *; auto. destruct H as [H1 H2]. split; [destruct (va v); auto|].
  eapply IH; [|exact H2]. destruct (entryb v); [|exact I]. intros x [->|X]; [now left|right; auto].
Qed.
Lemma ordered_app : forall a b pre, ordered pre a -> ordered pre b -> ordered pre (a ++ b).
Proof.
  induction a as [|v a IH]; intros b pre H H2; cbn in *; auto. destruct H as [H0 H1]. split; auto. apply IH; auto. eapply ordered_mono; [|exact H2].
  destruct (entryb v); [intros x X; now right|intros x X; exact X].
Qed.
Lemma visits_ordered : forall m names parent level pre, match parent with Some q => In q pre | None => True end -> ordered pre (visits m names parent level).
Proof.
  intros m. meta_induction m. intros names parent level pre P. cbn [visits]. induction cs as [|c t IHc]; [exact Logic.I|]. cbn [flat_map]. cbv zeta.
  apply ordered_app; [|apply IHc; intros; apply IH; auto; now right]. cbn [ordered va fst snd]. split; [exact P|].
  destruct (mkind c) eqn:K; [| |exact Logic.I].
  - unfold entryb. cbn [vc fst snd]. rewrite K. apply IH; [now left|exact P].
  - unfold entryb. cbn [vc fst snd]. rewrite K. unfold ndim. rewrite K. cbn [Nat.ltb Nat.leb orb]. apply IH; [now left|]. now left.
Qed.

Section Four.
Variable at_ : path -> nattr.
Variable m : meta.
Hypothesis W : wf_meta m.
Hypothesis G : good_references at_ m.
Notation in_ids := (in_ids m).
Notation shares := (shares at_ m).
Notation own_dim := (own_dim at_ m).
Notation alternative := (alternative at_ m).
Notation takes := (takes at_ m).
Notation named_dim := (named_dim at_ m).
Notation reaches := (reaches at_ m).

(** ** parsing *)
Lemma parse_dim_ok : forall c p a n i s, in_ids p c a n -> i < ndim c -> exists x, parse_dim at_ c p n i s = Ok x.
Proof.
  intros c p a n i s I L. unfold parse_dim. cbv zeta. destruct (n_refs (at_ p) i) as [|r0 rs]; [|destruct (is_ancestor p r0); eauto].
  pose proof (g_same _ _ G p c a n i I L) as Sm. destruct (n_same (at_ p) i) as [|r [|r' t]]; [|eauto|cbn in Sm; lia].
  destruct (negb (n + ndim c =? 1) || is_aos c); [|eauto].
  destruct (nth_error ["i"; "j"; "k"; "l"; "m"; "n"]%char i) eqn:E; [eauto|]. apply nth_error_None in E. cbn in E. pose proof (g_ndim _ _ G _ _ _ _ I). lia.
Qed.
Lemma parse_dims_ok : forall c p a n is s, in_ids p c a n -> (forall i, In i is -> i < ndim c) -> exists x, parse_dims at_ c p n is s = Ok x.
Proof.
  intros c p a n is. induction is as [|i t IH]; intros s I L; [eexists; reflexivity|]. cbn [parse_dims].
  destruct (parse_dim_ok c p a n i s I) as ([o s1] & E); [apply L; now left|]. rewrite E. cbn [rbind fst snd].
  destruct (IH s1 I) as ([os s2] & E2); [intros; apply L; now right|]. rewrite E2. cbn [rbind fst snd]. eauto.
Qed.
Lemma parse_one_ok : forall V s v, inv at_ m V s -> ~ In (vp v) (map vp V) -> seen m v -> exists s', parse_one at_ (vc v) (vp v) (va v) (vl v) s = Ok s'.
Proof.
  intros V s v I NV Sv. unfold parse_one. cbv zeta.
  assert (D : forall s1, 0 < ndim (vc v) -> pend s1 = pend s -> exists s', parse_dimensions at_ (vc v) (vp v) (vl v) s1 = Ok s').
  { intros s1 L P1. unfold parse_dimensions. destruct (error_of (vp v)) as [q|] eqn:Er; [eauto|].
    assert (SQ : forall i, In i (seq 0 (ndim (vc v))) -> i < ndim (vc v)) by (intros i J; apply in_seq in J; lia).
    destruct (parse_dims_ok (vc v) (vp v) (va v) (vl v) (seq 0 (ndim (vc v))) s1 Sv SQ) as ([os s2] & E). rewrite E. cbn [rbind fst snd].
    destruct (n_alts (at_ (vp v))) as [|a0 al] eqn:NA; [eauto|].
    assert (PV : forall i, aget (vp v, i) (pend s) = None).
    { assert (NU : ~ In (vp v) (map fst (ut s))).
      { rewrite (i_keys _ _ _ _ I). intros Q. apply NV. apply in_map_iff in Q. destruct Q as (w & Ew & Q). rewrite <- Ew. apply List.in_map. apply filter_In in Q. tauto. }
      intros i. destruct (aget (vp v, i) (pend s)) as [y|] eqn:Ey; auto. apply (i_pend _ _ _ _ I) in Ey. unfold slot in Ey. cbn [fst snd] in Ey. rewrite pget_none in Ey by auto. discriminate. }
    destruct (parse_dims_spec at_ m (vc v) (vp v) (va v) (vl v) (seq 0 (ndim (vc v))) s1 os s2) as (F & L2 & O2 & _); auto.
    { apply seq_NoDup. }
    { intros i _. rewrite P1. apply PV. }
    rewrite seq_length in L2.
    destruct (g_listed _ _ G _ _ _ _ Sv L) as (d0 & Od); [now apply error_of_none|rewrite NA; discriminate|].
    assert (NE : os <> []) by (intros ->; cbn in L2; lia).
    pose proof (last_nth_error _ os None NE) as LN. rewrite L2 in LN. assert (Ls : ndim (vc v) - 1 < ndim (vc v)) by lia; specialize (O2 (ndim (vc v) - 1) (ndim (vc v) - 1) _ (seq_nth_error (ndim (vc v)) 0 (ndim (vc v) - 1) Ls) LN).
    destruct (last os None) as [d|].
    - destruct O2 as (_ & Sd & _). cbv zeta. cbn [set_alts dimc]. destruct (sget d (dimc s2)); [eauto|congruence].
    - destruct O2 as (y & Sh & _). exfalso. eapply own_not_shares; eauto. }
  destruct (mkind (vc v)) as [| |lty lnd] eqn:K; [eauto| |].
  - destruct (0 <? ndim (vc v)) eqn:Z; [|eauto]. apply Nat.ltb_lt in Z. apply D; auto. destruct (va v); reflexivity.
  - destruct (0 <? ndim (vc v)) eqn:Z; [|eauto]. apply Nat.ltb_lt in Z. apply D; auto. destruct (va v); reflexivity.
Qed.
Lemma parse_all_ok : forall vs V s, inv at_ m V s -> NoDup (map vp (V ++ vs)) -> (forall v, In v vs -> seen m v) -> exists s', parse_all at_ vs s = Ok s'.
Proof.
  induction vs as [|v t IH]; intros V s I ND Sv; [eexists; reflexivity|]. cbn [parse_all].
  assert (NV : ~ In (vp v) (map vp V)) by (rewrite map_app in ND; cbn [map] in ND; apply NoDup_remove_2 in ND; rewrite in_app_iff in ND; tauto).
  destruct (parse_one_ok V s v I NV) as (s1 & E); [apply Sv; now left|]. rewrite E. cbn [rbind].
  apply (IH (V ++ [v])).
  - eapply parse_one_inv; eauto. apply Sv. now left.
  - now rewrite <- app_assoc.
  - intros w Hw. apply Sv. now right.
Qed.
Lemma parse_ok : exists s, parse at_ m [] None 0 nc0 = Ok s.
Proof.
  destruct (parse_all_ok (visits m [] None 0) [] nc0) as (s & E).
  - apply inv0.
  - now apply visits_nodup.
  - intros v V. apply visits_In in V. exact V.
  - exists s. now rewrite parse_visits.
Qed.

(** ** merging *)
Lemma axis_lens : forall s0 x, inv at_ m (visits m [] None 0) s0 -> axis_ok m x -> exists c a n, in_ids (fst x) c a n /\ lens (ut s0) (fst x) = Some (ndim c) /\ snd x < ndim c.
Proof.
  intros s0 x I (c & a & n & IN & L). exists c, a, n. split; auto. split; auto.
  assert (Hv : In (fst x, c, a, n) (visits m [] None 0)) by (apply visits_In; exact IN).
  destruct (i_len _ _ _ _ I _ Hv) as (l & Gl & Ll).
  - unfold entryb. cbn [vc fst snd]. destruct (mkind c) eqn:K; [unfold ndim in L; rewrite K in L; lia| |]; apply Bool.orb_true_iff; left; apply Nat.ltb_lt; cbn [vc fst snd]; lia.
  - unfold lens. cbn [vp vc fst snd] in Gl, Ll. rewrite Gl. cbn. now rewrite Ll.
Qed.
Lemma one_d_lens : forall s0 p, inv at_ m (visits m [] None 0) s0 -> one_d m p -> lens (ut s0) p = Some 1.
Proof.
  intros s0 p I (c & a & n & IN & L). destruct (axis_lens s0 (p, 0) I) as (c' & a' & n' & IN' & Le & _); [exists c, a, n; cbn; split; auto; lia|].
  cbn [fst] in *. destruct (in_ids_fun m W _ _ _ _ _ _ _ IN IN') as (<- & _). congruence.
Qed.
Lemma merge_path_ok : forall s0 p al done s, inv at_ m (visits m [] None 0) s0 -> minv at_ m s0 done s -> (forall a, In a al -> alternative a p) -> exists s', merge_path p al s = Ok s'.
Proof.
  intros s0 p al done s I0. revert done s. induction al as [|a t IH]; intros done s I A; [eexists; reflexivity|].
  assert (Aa : alternative a p) by (apply A; now left). destruct (g_alt _ _ G _ _ Aa) as (D1 & D2 & O & NM & UQ & SH).
  pose proof (one_d_lens s0 a I0 D1) as La. rewrite <- (m_lens _ _ _ _ _ I) in La. unfold lens in La.
  destruct (pget a (ut s)) as [l|] eqn:E; [|discriminate]. cbn in La. inversion La as [Ll]. destruct l as [|o [|o' l]]; try discriminate.
  assert (N : merge_path p (a :: t) s = merge_path p t (match o with None => s | Some _ => set_pend (a, 0) (p, 0) (set_ut a [None] s) end) ).
  { cbn [merge_path]. rewrite E. destruct o as [d|]; auto.
    assert (Sa : slot (ut s) (a, 0) = Some None) by (unfold slot; cbn [fst snd]; rewrite E; reflexivity).
    destruct (m_none _ _ _ _ _ I _ Sa) as (y & T & P). rewrite P.
    assert (y = (p, 0)).
    { destruct T as [T|(_ & _ & Y0 & T)]; [now apply SH|]. cbn [fst] in T. apply UQ in T. destruct y; cbn in *; subst; auto. }
    subst y. destruct (axis_dec (p, 0) (p, 0)); congruence. }
  rewrite N. clear N.
  set (s1 := match o with None => s | Some _ => set_pend (a, 0) (p, 0) (set_ut a [None] s) end).
  apply (IH (done ++ [(a, p)]) s1).
  - assert (Mp : merge_path p [a] s = Ok s1).
    { subst s1. cbn [merge_path]. rewrite E. destruct o as [d|]; auto.
      assert (Sa : slot (ut s) (a, 0) = Some None) by (unfold slot; cbn [fst snd]; rewrite E; reflexivity).
      destruct (m_none _ _ _ _ _ I _ Sa) as (y & T & P). rewrite P.
      assert (y = (p, 0)).
      { destruct T as [T|(_ & _ & Y0 & T)]; [now apply SH|]. cbn [fst] in T. apply UQ in T. destruct y; cbn in *; subst; auto. }
      subst y. destruct (axis_dec (p, 0) (p, 0)); congruence. }
    apply (merge_path_inv at_ m s0 p [a] done s s1) in Mp; auto. intros b [<-|[]]. exact Aa.
  - intros b B. apply A. now right.
Qed.
Lemma merge_one_ok : forall s0 p al done s, inv at_ m (visits m [] None 0) s0 -> minv at_ m s0 done s -> (forall a, In a al -> alternative a p) -> al <> [] -> exists s', merge_one p al s = Ok s'.
Proof.
  intros s0 p al done s I0 I A NE. destruct al as [|a0 t]; [congruence|]. assert (A0 : alternative a0 p) by (apply A; now left).
  destruct (g_alt _ _ G _ _ A0) as (D1 & D2 & (d0 & O) & NM & UQ & SH). unfold merge_one.
  pose proof (one_d_lens s0 p I0 D2) as La. pose proof La as La'. rewrite <- (m_lens _ _ _ _ _ I) in La. unfold lens in La.
  destruct (pget p (ut s)) as [l|] eqn:E; [|discriminate]. cbn in La. inversion La as [Ll]. destruct l as [|o [|o' l]]; try discriminate.
  destruct (merge_path_ok s0 p (a0 :: t) done s I0 I A) as (s1 & M). rewrite M. cbn [rbind].
  apply (merge_path_inv at_ m s0 p (a0 :: t) done s s1 I A) in M. rewrite <- (m_lens _ _ _ _ _ M) in La'. unfold lens in La'.
  destruct (pget p (ut s1)) as [l1|] eqn:E1; [|discriminate]. cbn in La'. inversion La' as [Ll1]. destruct l1 as [|o1 [|o1' l1]]; try discriminate.
  assert (S1 : slot (ut s1) (p, 0) = Some o1) by (unfold slot; cbn [fst snd]; rewrite E1; reflexivity).
  destruct o1 as [d|].
  - destruct (m_own _ _ _ _ _ M _ _ S1) as (_ & _ & Sd). destruct (sget d (dimc s1)); [eauto|congruence].
  - exfalso. destruct (m_none _ _ _ _ _ M _ S1) as (y & T & _). destruct T as [T|(_ & _ & _ & T)]; [eapply own_not_shares; eauto|]. eapply NM; eauto.
Qed.
Lemma merge_ok : forall s0 l done s, inv at_ m (visits m [] None 0) s0 -> minv at_ m s0 done s ->
  (forall p al, In (p, al) l -> al <> [] /\ forall a, In a al -> alternative a p) -> exists s', merge_alternatives l s = Ok s'.
Proof.
  intros s0 l. induction l as [|[p al] t IH]; intros done s I0 I A; [eexists; reflexivity|]. cbn [merge_alternatives].
  destruct (A p al (or_introl eq_refl)) as (NE & Al). destruct (merge_one_ok s0 p al done s I0 I Al NE) as (s1 & M). rewrite M. cbn [rbind].
  apply (IH (done ++ map (fun a => (a, p)) al)); auto.
  - eapply merge_one_inv; eauto.
  - intros q bl Q. apply A. now right.
Qed.

(** ** resolving *)
Lemma takes_target : forall x y, takes x y -> axis_ok m y.
Proof.
  intros x y [T|(_ & _ & Y0 & T)]; [eapply g_target; eauto|]. destruct (g_alt _ _ G _ _ T) as (_ & (c & a & n & I & L) & _). exists c, a, n. split; auto. lia.
Qed.
Lemma rinv_slot : forall s0 s items u x, inv at_ m (visits m [] None 0) s0 -> (forall p, lens (ut s) p = lens (ut s0) p) -> rinv at_ m s items u -> axis_ok m x -> exists o, slot u x = Some o.
Proof.
  intros s0 s items u x I L R OK. destruct (axis_lens s0 x I OK) as (c & a & n & _ & Le & Lt). eapply lens_slot; [|exact Lt]. rewrite (v_lens _ _ _ _ _ R), L. exact Le.
Qed.

(** rounds do not fail; names are only added *)
Lemma round_ok : forall s0 s items kept u, inv at_ m (visits m [] None 0) s0 -> (forall p, lens (ut s) p = lens (ut s0) p) -> rinv at_ m s (kept ++ items) u ->
  exists u' rest, resolve_round items u = Ok (u', rest) /\ (forall x d, slot u x = Some (Some d) -> slot u' x <> Some None) /\ length rest <= length items /\
  ((exists k x d, In (k, x) items /\ slot u x = Some (Some d)) -> length rest < length items).
Proof.
  intros s0 s items. induction items as [|[k x] t IH]; intros kept u I L R.
  - exists u, []. split; [reflexivity|]. split; [intros; congruence|]. split; auto. intros (k & x & d & [] & _).
  - assert (Ik : In (k, x) (kept ++ (k, x) :: t)) by (apply in_or_app; right; now left).
    destruct (v_items _ _ _ _ _ R _ _ Ik) as (T & Sk).
    destruct (rinv_slot s0 s _ u x I L R (takes_target _ _ T)) as (o & So). cbn [resolve_round].
    unfold slot in So. destruct (pget (fst x) u) as [l|] eqn:Gx; [|discriminate]. rewrite So. destruct o as [nm|].
    + unfold slot in Sk. destruct (pget (fst k) u) as [lk|] eqn:Gk; [|discriminate].
      assert (Sx : slot u x = Some (Some nm)) by (unfold slot; rewrite Gx; exact So).
      assert (R' := rinv_step at_ m s kept k x t u nm lk R Sx Gk).
      destruct (IH kept _ I L R') as (u' & rest & E & K & Le & _). exists u', rest. split; [exact E|]. split; [|split; cbn; [lia|intros; lia]].
      assert (Skn : slot u k <> None) by (unfold slot; rewrite Gk; congruence).
      intros z d Z. pose proof (slot_set u k nm lk z Gk Skn) as SS. destruct (axis_dec z k) as [->|N]; [apply (K k nm); exact SS|]. apply (K z d). rewrite SS. exact Z.
    + destruct (IH (kept ++ [(k, x)]) u I L) as (u' & rest & E & K & Le & Lt); [now rewrite <- app_assoc|].
      rewrite E. cbn [rbind fst snd]. exists u', ((k, x) :: rest). split; auto. split; auto. split; [cbn; lia|].
      intros (k' & x' & d & [J|J] & Sd).
      * inversion J; subst. unfold slot in Sd. rewrite Gx, So in Sd. discriminate.
      * cbn. assert (length rest < length t) by (apply Lt; eauto). lia.
Qed.

(** a finite set of dimensions each of which takes another one of them contains a circle *)
Fixpoint chain (l : list axis) : Prop := match l with x :: ((y :: _) as t) => takes x y /\ chain t | _ => True end.
Lemma chain_reaches : forall l x y, chain (x :: l ++ [y]) -> reaches x y.
Proof.
  induction l as [|z l IH]; intros x y C; cbn [app chain] in C; [apply rc_one; tauto|]. destruct C as [T C]. eapply rc_more; [exact T|]. apply IH. exact C.
Qed.
Lemma chain_app_r : forall a b, chain (a ++ b) -> chain b.
Proof. induction a as [|x a IH]; intros b C; auto. apply IH. cbn [app] in C. destruct (a ++ b) as [|y t]; [exact Logic.I|]. cbn [chain] in C. tauto. Qed.
Lemma chain_app_l : forall a b, chain (a ++ b) -> chain a.
Proof.
  induction a as [|x a IH]; intros b C; [exact Logic.I|]. cbn [app] in C. destruct a as [|y a]; [exact Logic.I|]. cbn [app] in *. cbn [chain] in *. destruct C as [T C]. split; auto. eapply IH; eauto.
Qed.
Lemma dup_split : forall l : list axis, ~ NoDup l -> exists a l1 l2 l3, l = l1 ++ a :: l2 ++ a :: l3.
Proof.
  induction l as [|x t IH]; intros N; [exfalso; apply N; constructor|]. destruct (in_dec axis_dec x t) as [I|I].
  - apply in_split in I. destruct I as (l2 & l3 & ->). exists x, [], l2, l3. reflexivity.
  - destruct IH as (a & l1 & l2 & l3 & ->); [intros H; apply N; constructor; auto|]. exists a, (x :: l1), l2, l3. reflexivity.
Qed.
Lemma circle : forall (K : list axis) x0, In x0 K -> (forall x, In x K -> exists y, takes x y /\ In y K) -> exists x, reaches x x.
Proof.
  intros K x0 I0 H.
  assert (B : forall n, forall x, In x K -> exists l, length l = n /\ chain (x :: l) /\ incl (x :: l) K).
  { induction n as [|n IH]; intros x X; [exists []; split; auto; split; [exact Logic.I|]; intros z [<-|[]]; auto|].
    destruct (H x X) as (y & T & Y). destruct (IH y Y) as (l & L & C & IC). exists (y :: l). cbn [length]. split; [lia|]. split; [cbn [chain]; split; auto|]. intros z [<-|Z]; auto. }
  destruct (B (length K) x0 I0) as (l & L & C & IC).
  destruct (NoDup_dec axis_dec (x0 :: l)) as [ND|ND].
  - apply (NoDup_incl_length ND) in IC. cbn in IC. lia.
  - apply dup_split in ND. destruct ND as (a & l1 & l2 & l3 & E). rewrite E in C. apply chain_app_r in C.
    exists a. apply (chain_reaches l2). apply (chain_app_l _ l3). cbn [app] in *. now rewrite <- app_assoc.
Qed.

Lemma resolve_ok : forall s0 s, inv at_ m (visits m [] None 0) s0 -> (forall p, lens (ut s) p = lens (ut s0) p) -> no_circles at_ m ->
  forall fuel items u, rinv at_ m s items u -> length items < fuel -> exists u', resolve_pending fuel items u = Ok u'.
Proof.
  intros s0 s I L NC. induction fuel as [|fuel IH]; intros items u R Lf; [lia|]. cbn [resolve_pending].
  destruct (round_ok s0 s items [] u I L R) as (u' & rest & E & _ & Le & Lt). rewrite E. cbn [rbind fst snd].
  destruct rest as [|r rest]; [eauto|]. apply IH.
  - eapply (resolve_round_inv at_ m s items []); eauto.
  - assert (X : length (r :: rest) < length items); [|cbn in *; lia].
    apply Lt. destruct items as [|[k x] t]; [cbn in Le; lia|].
    (* otherwise there is a circle *)
    destruct (Exists_dec (fun e : axis * axis => exists d, slot u (snd e) = Some (Some d)) ((k, x) :: t)) as [Ex|Ex].
    + intros e. destruct (slot u (snd e)) as [[d|]|]; [left; eauto|right; intros (d & Q); discriminate|right; intros (d & Q); discriminate].
    + apply Exists_exists in Ex. destruct Ex as ([k' x'] & J & d & Sd). eauto.
    + exfalso. destruct (circle (map fst ((k, x) :: t)) k) as (z & Z); [now left| |exact (NC z Z)].
      intros z Z. apply in_map_iff in Z. destruct Z as ([k' x'] & <- & J). exists x'. cbn [fst]. destruct (v_items _ _ _ _ _ R _ _ J) as (T & _). split; auto.
      destruct (rinv_slot s0 s _ u x' I L R (takes_target _ _ T)) as (o & So). destruct o as [d|].
      * exfalso. apply Ex. apply Exists_exists. exists (k', x'). split; auto. cbn. eauto.
      * destruct (v_none _ _ _ _ _ R _ So) as (y & Y). apply (List.in_map fst) in Y. exact Y.
Qed.
(** resolving ends, with a result or with the error for circular references *)
Lemma resolve_or_circular : forall s0 s, inv at_ m (visits m [] None 0) s0 -> (forall p, lens (ut s) p = lens (ut s0) p) ->
  forall fuel items u, rinv at_ m s items u -> (exists u', resolve_pending fuel items u = Ok u') \/ resolve_pending fuel items u = Err Circular.
Proof.
  intros s0 s I L. induction fuel as [|fuel IH]; intros items u R; [now right|]. cbn [resolve_pending].
  destruct (round_ok s0 s items [] u I L R) as (u' & rest & E & _). rewrite E. cbn [rbind fst snd].
  destruct rest as [|r rest]; [eauto|]. apply IH. eapply (resolve_round_inv at_ m s items []); eauto.
Qed.

(** ** tensorizing *)
Lemma find_child : forall cs c, In c cs -> NoDup (map mname cs) -> List.find (fun d => str_eqb (mname d) (mname c)) cs = Some c.
Proof.
  induction cs as [|d t IH]; intros c I ND; [destruct I|]. cbn [map] in ND. inversion ND as [|? ? NI ND']; subst. cbn [List.find]. destruct I as [->|I].
  - now rewrite str_eqb_refl.
  - destruct (str_eqb (mname d) (mname c)) eqn:E; [|now apply IH]. apply str_eqb_eq in E. exfalso. apply NI. rewrite E. now apply List.in_map.
Qed.
Lemma below_meta_at : forall k names parent lv p c a n, below k names parent lv p c a n -> wf_meta k -> exists r, p = names ++ r /\ meta_at k r = Some c.
Proof.
  induction 1; intros Wk; assert (ND : NoDup (map mname cs)) by (inversion Wk; auto); assert (WC : forall c, In c cs -> wf_meta c) by (inversion Wk; auto).
  - exists [mname c]. split; auto. cbn [meta_at mchildren]. now rewrite find_child.
  - destruct (IHbelow (WC _ H)) as (r & -> & E). exists (mname c :: r). rewrite <- app_assoc. split; auto. cbn [meta_at mchildren]. now rewrite find_child.
  - destruct (IHbelow (WC _ H)) as (r & -> & E). exists (mname c :: r). rewrite <- app_assoc. split; auto. cbn [meta_at mchildren]. now rewrite find_child.
Qed.
Lemma meta_at_in : forall p c a n, in_ids p c a n -> meta_at m p = Some c.
Proof. intros p c a n H. destruct (below_meta_at _ _ _ _ _ _ _ _ H W) as (r & -> & E). exact E. Qed.

Lemma own_coordinates_ok : forall p dc own i, (forall o, In o own -> exists d, o = Some d /\ sget d dc <> None) -> exists l, own_coordinates at_ p i own dc = Ok l.
Proof.
  intros p dc own. induction own as [|o t IH]; intros i H; [eexists; reflexivity|]. cbn [own_coordinates].
  destruct (IH (S i)) as (l & E); [intros; apply H; now right|]. rewrite E. destruct (n_refs (at_ p) i); [eauto|].
  destruct (H o (or_introl eq_refl)) as (d & -> & N). destruct (sget d dc); [cbn [rbind]; eauto|congruence].
Qed.
Lemma tensorize_ok : forall s vs items dims coords pre,
  map fst items = map vp (filter entryb vs) -> ordered pre vs -> (forall q, In q pre -> pget q dims <> None) ->
  (forall v, In v vs -> seen m v /\ pget (vp v) (aosm s) = va v) ->
  (forall p own o, In (p, own) items -> In o own -> exists d, o = Some d /\ sget d (dimc s) <> None) ->
  exists r, tensorize at_ m items s dims coords = Ok r.
Proof.
  intros s. induction vs as [|v t IH]; intros items dims coords pre K O P Sv N.
  - destruct items; [eexists; reflexivity|discriminate].
  - cbn [ordered] in O. destruct O as [O1 O2]. cbn [filter] in K. destruct (entryb v) eqn:E; [|eapply IH; eauto; intros; apply Sv; now right].
    destruct items as [|[p own] items]; [discriminate|]. cbn [map fst] in K. inversion K as [[Kp Kt]]. subst p. cbn [tensorize].
    destruct (Sv v (or_introl eq_refl)) as (Iv & Av). rewrite Av.
    assert (Ea : exists a, (match va v with None => Ok ([], []) | Some q => match pget q dims with None => Err KeyErr | Some d => Ok (d, match pget q coords with Some l => l | None => [] end) end end) = Ok a).
    { destruct (va v) as [q|]; [|eauto]. specialize (P q O1). destruct (pget q dims); [eauto|congruence]. }
    destruct Ea as (a & Ea). rewrite Ea. cbn [rbind]. rewrite (meta_at_in _ _ _ _ Iv).
    destruct (own_coordinates_ok (vp v) (dimc s) own 0) as (oc & Eo); [intros o J; eapply N; eauto; now left|]. rewrite Eo. cbn [rbind]. cbv zeta.
    apply (IH items _ _ (vp v :: pre)); auto.
    + intros q [<-|Q]; [rewrite pget_same; discriminate|]. rewrite pget_pset. destruct (path_dec q (vp v)); [discriminate|now apply P].
    + intros w Hw. apply Sv. now right.
    + intros q o o' Q. eapply N. right. exact Q.
Qed.
End Four.
