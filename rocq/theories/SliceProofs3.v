(** One put_slice: the contents of the store before and after. *)
From Verif Require Import Base TreeModel TreeSpec TreeProofs ConvSpec ConvProofs3 ConvProofs4 VmapModel
  StoreModel StoreSpec StoreProofs StoreProofs2 StoreProofs3 StoreProofs4 StoreProofs5 StoreProps SliceModel SliceSpec SliceProofs SliceProofs2.
From Verif Require PrimModel.

(** * A sequence of calls *)
Definition target (s0 : store) (c : call) : bool * key := match c with Write k _ => (false, shift_key s0 k) | Begin k _ => (true, shift_key s0 k) end.
Lemma target_key : forall s0 c, target s0 c = (fst (call_key c), shift_key s0 (snd (call_key c))).
Proof. intros s0 [k v|k n]; reflexivity. Qed.

Section Calls.
Variable resize : nat -> nat -> nat.
Definition new_data (t : bool) (o : option value) (v : value) : option value := if t then joined append o (Some v) else Some v.
Definition new_size (t : bool) (o : option nat) (n : nat) : option nat :=
  Some (match o with Some j => if t then j + n else resize j n | None => n end).

Lemma apply_slices_ok : forall calls s0 s s', apply_slices resize s0 s calls = Ok s' -> NoDup (map (target s0) calls) ->
  (forall k v, In (Write k v) calls -> s_data s' (shift_key s0 k) = new_data (timed (snd k)) (s_data s (shift_key s0 k)) v) /\
  (forall k, (forall k0 v, In (Write k0 v) calls -> shift_key s0 k0 <> k) -> s_data s' k = s_data s k) /\
  (forall k n, In (Begin k n) calls -> s_size s' (shift_key s0 k) = new_size (timed (snd k)) (s_size s (shift_key s0 k)) n) /\
  (forall k, (forall k0 n, In (Begin k0 n) calls -> shift_key s0 k0 <> k) -> s_size s' k = s_size s k).
Proof.
  induction calls as [|c calls IH]; intros s0 s s' R ND; cbn [apply_slices] in R.
  - injection R as <-. split; [intros ? ? []|]. split; [auto|]. split; [intros ? ? []|auto].
  - destruct (apply_slice resize s0 s c) as [s1|e] eqn:A; [|discriminate R]. cbn [rbind] in R. cbn [map] in ND. inversion ND as [|? ? NI ND']; subst.
    destruct (IH s0 s1 s' R ND') as (I1 & I2 & I3 & I4). destruct c as [k v|k n].
    + assert (ND1 : forall k0 v0, In (Write k0 v0) calls -> shift_key s0 k0 <> shift_key s0 k).
      { intros k0 v0 I E. apply NI. cbn [target]. rewrite <- E. apply (List.in_map (target s0) _ _ I). }
      assert (E1 : s_size s1 = s_size s /\ forall k', s_data s1 k' = if key_eqb (shift_key s0 k) k' then new_data (timed (snd k)) (s_data s (shift_key s0 k)) v else s_data s k').
      { cbn [apply_slice] in A. change (timed (snd (shift_key s0 k))) with (timed (snd k)) in A. unfold new_data, joined.
        destruct (s_data s (shift_key s0 k)) as [u|]; [destruct (timed (snd k)); [destruct (append u v) as [w|]; [|discriminate A]|]|]; injection A as <-; split; try reflexivity.
        intros k'. cbn. now destruct (timed (snd k)). }
      destruct E1 as [ES ED]. split; [|split; [|split]].
      * intros k0 v0 [X|X].
        -- injection X as <- <-. rewrite (I2 _ ND1), ED, key_eqb_refl. reflexivity.
        -- rewrite (I1 _ _ X), ED. destruct (key_eqb (shift_key s0 k) (shift_key s0 k0)) eqn:Q; auto. apply key_eqb_eq in Q. destruct (ND1 _ _ X). auto.
      * intros k' N. rewrite I2, ED by (intros k0 v0 X; apply (N k0 v0); now right).
        destruct (key_eqb (shift_key s0 k) k') eqn:Q; auto. apply key_eqb_eq in Q. destruct (N k v (or_introl eq_refl) Q).
      * intros k0 n0 [X|X]; [discriminate X|]. rewrite (I3 _ _ X), ES. reflexivity.
      * intros k' N. rewrite I4, ES; auto. intros k0 n0 X. apply (N k0 n0). now right.
    + assert (ND1 : forall k0 v0, In (Begin k0 v0) calls -> shift_key s0 k0 <> shift_key s0 k).
      { intros k0 v0 I E. apply NI. cbn [target]. rewrite <- E. apply (List.in_map (target s0) _ _ I). }
      cbn [apply_slice] in A. change (timed (snd (shift_key s0 k))) with (timed (snd k)) in A. injection A as <-. cbn [s_data s_size set_size] in *.
      split; [|split; [|split]].
      * intros k0 v0 [X|X]; [discriminate X|]. now apply I1.
      * intros k' N. apply I2. intros k0 v0 X. apply (N k0 v0). now right.
      * intros k0 n0 [X|X].
        -- injection X as <- <-. rewrite (I4 _ ND1), key_eqb_refl. reflexivity.
        -- rewrite (I3 _ _ X). destruct (key_eqb (shift_key s0 k) (shift_key s0 k0)) eqn:Q; auto. apply key_eqb_eq in Q. destruct (ND1 _ _ X). auto.
      * intros k' N. rewrite I4 by (intros k0 v0 X; apply (N k0 v0); now right).
        destruct (key_eqb (shift_key s0 k) k') eqn:Q; auto. apply key_eqb_eq in Q. destruct (N k n (or_introl eq_refl) Q).
Qed.

(** the calls succeed if the arrays fit *)
Lemma apply_slices_total : forall calls s0 s, NoDup (map (target s0) calls) ->
  (forall k v u, In (Write k v) calls -> s_data s (shift_key s0 k) = Some u -> timed (snd k) = true -> append u v <> None) ->
  exists s', apply_slices resize s0 s calls = Ok s'.
Proof.
  induction calls as [|c calls IH]; intros s0 s ND H; cbn [apply_slices]; [eauto|]. cbn [map] in ND. inversion ND as [|? ? NI ND']; subst.
  assert (A : exists s1, apply_slice resize s0 s c = Ok s1 /\ forall k', (false, k') <> target s0 c -> s_data s1 k' = s_data s k').
  { destruct c as [k v|k n]; cbn [apply_slice target].
    - specialize (H k v). destruct (s_data s (shift_key s0 k)) as [u|] eqn:D.
      + change (timed (snd (shift_key s0 k))) with (timed (snd k)). destruct (timed (snd k)) eqn:T.
        * destruct (append u v) as [w|] eqn:AP; [|destruct (H u (or_introl eq_refl) eq_refl eq_refl AP)]. eexists. split; [reflexivity|].
          intros k' N. cbn. destruct (key_eqb (shift_key s0 k) k') eqn:Q; auto. apply key_eqb_eq in Q. congruence.
        * eexists. split; [reflexivity|]. intros k' N. cbn. destruct (key_eqb (shift_key s0 k) k') eqn:Q; auto. apply key_eqb_eq in Q. congruence.
      + eexists. split; [reflexivity|]. intros k' N. cbn. destruct (key_eqb (shift_key s0 k) k') eqn:Q; auto. apply key_eqb_eq in Q. congruence.
    - eexists. split; [reflexivity|]. reflexivity. }
  destruct A as (s1 & -> & E). cbn [rbind]. apply IH; auto. intros k v u I D T. apply (H k v u); auto; [now right|]. rewrite <- D. symmetry. apply E.
  intros X. apply NI. rewrite <- X. apply (List.in_map (target s0) _ _ I).
Qed.
(** and only then *)
Lemma apply_slices_fit : forall calls s0 s s', apply_slices resize s0 s calls = Ok s' -> NoDup (map (target s0) calls) ->
  forall k v u, In (Write k v) calls -> s_data s (shift_key s0 k) = Some u -> timed (snd k) = true -> append u v <> None.
Proof.
  induction calls as [|c calls IH]; intros s0 s s' R ND k v u I D T; [destruct I|]. cbn [apply_slices] in R.
  destruct (apply_slice resize s0 s c) as [s1|e] eqn:A; [|discriminate R]. cbn [rbind] in R. cbn [map] in ND. inversion ND as [|? ? NI ND']; subst.
  destruct I as [->|I].
  - cbn [apply_slice] in A. rewrite D in A. change (timed (snd (shift_key s0 k))) with (timed (snd k)) in A. rewrite T in A. destruct (append u v); [discriminate|discriminate A].
  - apply (IH s0 s1 s' R ND' k v u I); auto. rewrite <- D.
    assert (N : (false, shift_key s0 k) <> target s0 c) by (intros X; apply NI; rewrite <- X; apply (List.in_map (target s0) _ _ I)).
    destruct c as [k1 v1|k1 n1]; cbn [apply_slice target] in A, N.
    + assert (Q : key_eqb (shift_key s0 k1) (shift_key s0 k) = false) by (destruct (key_eqb (shift_key s0 k1) (shift_key s0 k)) eqn:Q; auto; apply key_eqb_eq in Q; congruence).
      destruct (s_data s (shift_key s0 k1)) as [u1|]; [destruct (timed _); [destruct (append u1 v1)|]|]; try discriminate A; injection A as <-; cbn; now rewrite Q.
    + injection A as <-. reflexivity.
Qed.
End Calls.

(** data nodes in an element of a time dependent array of structures are inside a dynamic node *)
Lemma inside_series : forall dynamic m p i r m1 dt nd, mkind m = KStruct -> loc_ok m (p ++ Elem i :: r) m1 -> mkind m1 = KLeaf dt nd -> dynamic (loc_names p) = true ->
  inside_dynamic dynamic (loc_names (p ++ Elem i :: r)) = true.
Proof.
  intros dynamic m p i r m1 dt nd K L KL DP. unfold inside_dynamic. rewrite loc_names_app. cbn [loc_names flat_map app]. fold (loc_names r).
  apply loc_ok_split in L. destruct L as (ma & LA & LB). inversion LB as [| |nm cs ? ? ? LB']; subst.
  assert (LP : loc_names p <> []).
  { intros X. destruct p as [|[x|x] p]; [|discriminate X|]; inversion LA; subst; discriminate K. }
  assert (LR : loc_names r <> []).
  { intros X. destruct r as [|[x|x] r]; [|discriminate X|]; inversion LB'; subst. discriminate KL. }
  apply existsb_exists. exists (length (loc_names p)). split.
  - apply in_seq. rewrite app_length. destruct (loc_names p); [congruence|]. destruct (loc_names r); [congruence|]. cbn. lia.
  - rewrite firstn_app, Nat.sub_diag, firstn_all, app_nil_r. exact DP.
Qed.

Section Step.
Variable resize : nat -> nat -> nat.
Hypothesis RESIZE : forall n, resize n n = n.
Variable dynamic : list str -> bool.
Variable xml_tbp : list str -> str.
Variable maxoccur : list str -> option nat.
Variable mode : Z.
Variable verify : bool.
Variable m : meta.
Hypothesis NM : named m.
Hypothesis W : wf_meta m.
Hypothesis K : mkind m = KStruct.
Hypothesis MODE : mode <> 2%Z.
Notation placed := (placed dynamic xml_tbp None mode).
Notation position := (position dynamic xml_tbp None mode).
Notation position_of := (position_of dynamic xml_tbp None mode).
Notation series := (series dynamic).
Notation extend := (extend dynamic xml_tbp append).
Notation slid := (slid dynamic).

(** the store contains c, and nothing else, at the positions of the IDS *)
Definition stores (s : store) (c : contents) : Prop :=
  (forall l m1 k, loc_ok m l m1 -> is_leaf m1 -> position_of false l k -> s_data s k = at_ c l) /\
  (forall l m1 k, loc_ok m l m1 -> mkind m1 = KAoS -> position_of true l k -> s_size s k = match size c l with O => None | n => Some n end).

Lemma position_any : forall aos l, exists k, position_of aos l k.
Proof. intros aos l. apply position_exists. intros a nm b E [X _]. congruence. Qed.

Lemma timed_place : forall p : place, timed (homogenised mode p) = timed p.
Proof.
  intros [a b]. unfold timed, homogenised. cbn [fst snd]. destruct (str_eqb b []) eqn:E; [reflexivity|]. destruct (mode =? 1)%Z; [reflexivity|]. now rewrite E.
Qed.
Lemma placed_aos : forall names rel p, placed true names rel p -> timed p = dynamic names.
Proof.
  intros names rel p H. inversion H; subst; [|discriminate]. rewrite timed_place. unfold timed, own_base. cbn [fst snd]. destruct (dynamic names); [|reflexivity].
  destruct (path_of rel) as [|c t]; reflexivity.
Qed.
Lemma placed_leaf : forall names rel p, placed false names rel p -> timed p = dynamic names && negb (inside_dynamic dynamic names) && negb (str_eqb (xml_tbp names) []).
Proof.
  intros names rel p H. inversion H; subst; [|discriminate]. rewrite timed_place. unfold timed, own_base. cbn [fst snd]. destruct (dynamic names && _); reflexivity.
Qed.
Lemma position_place : forall aos l names rel c q, position aos names rel l (c, q) -> exists rel', placed aos (names ++ loc_names l) rel' q.
Proof.
  induction l as [|s l IH]; intros names rel c q H; inversion H; subst.
  - rewrite app_nil_r. eauto.
  - match goal with P : StoreSpec.position _ _ _ _ _ _ _ l _ |- _ => destruct (IH _ _ _ _ P) as [r Q]; exists r; rewrite <- app_assoc in Q; exact Q end.
  - match goal with P : StoreSpec.position _ _ _ _ _ _ _ l _ |- _ => destruct (IH _ _ _ _ P) as [r Q]; exists r; exact Q end.
Qed.
Lemma timed_aos : forall l k, position_of true l k -> timed (snd k) = dynamic (loc_names l).
Proof. intros l [c q] P. apply position_place in P. destruct P as [r P]. apply placed_aos in P. exact P. Qed.
Lemma timed_leaf : forall l k, position_of false l k -> timed (snd k) = has_time dynamic xml_tbp l.
Proof. intros l [c q] P. apply position_place in P. destruct P as [r P]. apply placed_leaf in P. exact P. Qed.

(** ** contexts of a slice action *)
(** l below pre, with all indices of time dependent elements shifted *)
Fixpoint slide (sz : loc -> nat) (pre l : loc) : loc :=
  match l with
  | [] => []
  | Child c :: t => Child c :: slide sz (pre ++ [Child c]) t
  | Elem i :: t => let j := if dynamic (loc_names pre) then sz pre + i else i in Elem j :: slide sz (pre ++ [Elem j]) t
  end.
Lemma slide_none : forall sz l pre, series pre l = None -> slide sz pre l = l.
Proof.
  intros sz. induction l as [|s l IH]; intros pre H; cbn [SliceSpec.series] in H; auto. destruct s as [c|i]; cbn [slide].
  - now rewrite IH.
  - destruct (dynamic (loc_names pre)); [discriminate|]. cbn zeta. now rewrite IH.
Qed.
Lemma slide_zero : forall sz l pre, (forall t, sz (pre ++ t) = 0) -> slide sz pre l = l.
Proof.
  intros sz. induction l as [|s l IH]; intros pre H; auto. destruct s as [c|i]; cbn [slide].
  - rewrite IH; auto. intros t. rewrite <- app_assoc. apply H.
  - assert (E : (if dynamic (loc_names pre) then sz pre + i else i) = i) by (specialize (H []); rewrite app_nil_r in H; rewrite H; now destruct (dynamic _)).
    cbn zeta. rewrite E, IH; auto. intros t. rewrite <- app_assoc. apply H.
Qed.
Lemma slide_some : forall sz l pre p i r, series pre l = Some (p, i, r) -> (forall t, sz (p ++ Elem (sz p + i) :: t) = 0) ->
  exists d, p = pre ++ d /\ slide sz pre l = d ++ Elem (sz p + i) :: r.
Proof.
  intros sz. induction l as [|s l IH]; intros pre p i r H Z; cbn [SliceSpec.series] in H; [discriminate|]. destruct s as [c|j]; cbn [slide].
  - destruct (IH _ _ _ _ H Z) as (d & -> & E). exists (Child c :: d). rewrite <- app_assoc in *. rewrite E. auto.
  - destruct (dynamic (loc_names pre)) eqn:D.
    + injection H as <- <- <-. exists []. rewrite app_nil_r. split; auto. cbn zeta. rewrite slide_zero; auto. intros t. rewrite <- app_assoc. apply Z.
    + destruct (IH _ _ _ _ H Z) as (d & -> & E). exists (Elem j :: d). rewrite <- app_assoc in *. cbn zeta. rewrite E. auto.
Qed.
Lemma slide_slid : forall c l, proper m c -> slide (size c) [] l = slid c l.
Proof.
  intros c l P. unfold SliceProofs2.slid. destruct (series [] l) as [[[p i] r]|] eqn:E; [|now apply slide_none].
  destruct (slide_some (size c) l [] p i r E) as (d & -> & ->); auto. intros t. apply (outside m c p (size c p + i) t P). lia.
Qed.

Lemma shift_position : forall s c, stores s c -> forall l mh m1 aos names rel c' q pre cx, goes m pre mh -> lifts dynamic xml_tbp mode pre names rel cx ->
  names = loc_names pre -> loc_ok mh l m1 -> position aos names rel l (c', q) ->
  exists c2, shift s cx c' = cx ++ c2 /\ position aos names rel (slide (size c) pre l) (c2, q).
Proof.
  intros s c [_ ST]. induction l as [|st l IH]; intros mh m1 aos names rel c' q pre cx G L EN LO P.
  - inversion P; subst. exists []. rewrite app_nil_r. cbn [shift slide]. auto.
  - inversion LO as [|nm cs d l0 m2 D LO'|nm cs i l0 m2 LO']; subst; cbn [slide].
    + inversion P; subst. destruct (IH d m1 aos (loc_names pre ++ [mname d]) (rel ++ [mname d]) c' q (pre ++ [Child (mname d)]) cx) as (c2 & E & P2); auto.
      * eapply goes_child; eauto.
      * apply lifts_child; auto.
      * rewrite loc_names_app. reflexivity.
      * exists c2. split; auto. constructor; auto.
    + inversion P as [| |? ? ? ? p c0 q0 PL PO]; subst. cbn [shift].
      set (j := if timed p then stored_size s (cx, p) + i else i).
      assert (EJ : j = if dynamic (loc_names pre) then size c pre + i else i).
      { unfold j. rewrite (placed_aos _ _ _ PL). destruct (dynamic (loc_names pre)); auto. f_equal. unfold stored_size.
        rewrite (ST pre (Meta nm KAoS cs) (cx, p)); auto.
        - now destruct (size c pre).
        - specialize (G [] _ (lo_here _)). rewrite app_nil_r in G. exact G.
        - specialize (L true [] [] p (po_here _ _ _ _ _ _ _ _ PL)). rewrite !app_nil_r in L. exact L. }
      destruct (IH (Meta nm KStruct cs) m1 aos (loc_names pre) [] c0 q (pre ++ [Elem j]) (cx ++ [(p, j)])) as (c2 & E & P2); auto.
      * eapply goes_elem; eauto.
      * eapply lifts_elem; eauto.
      * rewrite loc_names_app. cbn. now rewrite app_nil_r.
      * exists ((p, j) :: c2). split; [rewrite E, <- app_assoc; reflexivity|]. cbn zeta. rewrite <- EJ. constructor; auto.
Qed.
Lemma shift_key_position : forall s c l m1 aos k, proper m c -> stores s c -> loc_ok m l m1 -> position_of aos l k -> position_of aos (slid c l) (shift_key s k).
Proof.
  intros s c l m1 aos [c' q] P ST LO PO. destruct (shift_position s c ST l m m1 aos [] [] c' q [] []) as (c2 & E & P2); auto.
  - intros l' m' X. exact X.
  - intros a l' c2 q2 X. exact X.
  - unfold shift_key. cbn [fst snd]. rewrite E. rewrite (slide_slid c l P) in P2. exact P2.
Qed.

(** ** the calls of one put_slice *)
Variable fs : TreeModel.fields.
Hypothesis CF : conf m (NStruct fs).
Hypothesis ST : settled m (NStruct fs).
Notation b := (contents_of (NStruct fs)).
Variable calls : list call.
Hypothesis PUT : put_children dynamic xml_tbp maxoccur None mode true verify m (NStruct fs) = (calls, None).

Lemma inj : forall l l' m1 m1' aos k, loc_ok m l m1 -> loc_ok m l' m1' -> mkind m1 <> KStruct -> mkind m1' <> KStruct ->
  position_of aos l k -> position_of aos l' k -> l = l'.
Proof. intros l l' m1 m1' aos k L L' K1 K2 P1 P2. eapply (position_inj dynamic xml_tbp mode (length l) l l' m m); eauto. Qed.

Lemma writes : forall k v, In (Write k v) calls <-> exists l, at_ b l = Some v /\ position_of false l k /\ dynamic (loc_names l) = true.
Proof.
  intros k v. rewrite (proj1 (C31_put_exact _ _ _ _ _ _ _ _ _ _ NM K CF PUT)). split; intros (l & H & P & D); exists l.
  - split; [apply (contents_leaf m); auto|auto].
  - apply (contents_leaf m) in H; auto.
Qed.
Lemma begins : forall k j, In (Begin k j) calls <-> exists l, size b l = j /\ j > 0 /\ position_of true l k.
Proof.
  intros k j. rewrite (proj2 (C31_put_exact _ _ _ _ _ _ _ _ _ _ NM K CF PUT)). split.
  - intros (l & H & P). apply (contents_size m) in H; auto. exists l. tauto.
  - intros (l & H & H' & P). exists l. split; auto. apply (contents_size m); auto.
Qed.

Lemma call_locs : forall s c y, proper m c -> stores s c -> In y calls -> exists l m1, loc_ok m l m1 /\ mkind m1 <> KStruct /\
  position_of (fst (call_key y)) l (snd (call_key y)) /\ position_of (fst (call_key y)) (slid c l) (shift_key s (snd (call_key y))).
Proof.
  intros s c y P S I. pose proof (contents_proper m (NStruct fs) W CF ST) as PB. destruct y as [k v|k j].
  - apply writes in I. destruct I as (l & H & PO & D). destruct (pr_leaf _ _ PB _ _ H) as (m1 & dt & nd & L & KL & _). exists l, m1.
    split; auto. split; [congruence|]. split; auto. cbn [call_key fst snd]. eapply shift_key_position; eauto.
  - apply begins in I. destruct I as (l & H & G & PO). assert (N : size b l <> 0) by lia. destruct (pr_size _ _ PB _ N) as (m1 & L & KL & _). exists l, m1.
    split; auto. split; [congruence|]. split; auto. cbn [call_key fst snd]. eapply shift_key_position; eauto.
Qed.
Lemma targets_nodup : forall s c, proper m c -> stores s c -> NoDup (map (target s) calls).
Proof.
  intros s c P S. pose proof (put_children_nodup dynamic xml_tbp maxoccur mode true verify m NM K fs calls W CF PUT) as ND.
  assert (INJ : forall y y', In y calls -> In y' calls -> target s y = target s y' -> call_key y = call_key y').
  { intros y y' I I' E. rewrite !target_key in E. injection E as EA E1 E2.
    destruct (call_locs s c y P S I) as (l & m1 & L & K1 & PO & PS). destruct (call_locs s c y' P S I') as (l' & m1' & L' & K1' & PO' & PS').
    assert (EK : shift_key s (snd (call_key y)) = shift_key s (snd (call_key y'))) by (unfold shift_key; congruence).
    rewrite <- EK, <- EA in PS'. assert (EL : slid c l = slid c l').
    { apply (inj (slid c l) (slid c l') m1 m1' (fst (call_key y)) (shift_key s (snd (call_key y)))); auto using slid_loc_ok. }
    apply slid_inj in EL. subst l'. rewrite <- EA in PO'. pose proof (position_fun dynamic xml_tbp None mode _ _ _ _ _ _ PO PO') as EKK.
    rewrite (surjective_pairing (call_key y)), (surjective_pairing (call_key y')). congruence. }
  clear - ND INJ. induction calls as [|y t IH]; cbn [map] in *; [constructor|]. inversion ND as [|? ? NI ND']; subst. constructor.
  - intros X. apply in_map_iff in X. destruct X as (y' & E & I). apply NI. rewrite (INJ y y'); [apply List.in_map; auto|now left|now right|auto].
  - apply IH; auto. intros y1 y2 I1 I2. apply INJ; now right.
Qed.

Lemma stored_step : forall s c s', proper m c -> stores s c -> same_sizes dynamic c b -> apply_slices resize s s calls = Ok s' -> stores s' (extend c b).
Proof.
  intros s c s' P S SS R. destruct (apply_slices_ok resize calls s s s' R (targets_nodup s c P S)) as (I1 & I2 & I3 & I4).
  pose proof (contents_proper m (NStruct fs) W CF ST) as PB. destruct S as [SD SZ]. split.
  - intros l m1 k L KL PO.
    assert (CASE : (exists l0 v, l = slid c l0 /\ at_ b l0 = Some v /\ dynamic (loc_names l0) = true) \/
                   (forall l0 v, l = slid c l0 -> at_ b l0 = Some v -> dynamic (loc_names l0) = true -> False)).
    { unfold SliceProofs2.slid. destruct (series [] l) as [[[p i] r]|] eqn:E.
      - destruct (Nat.ltb_spec i (size c p)) as [H|H].
        + right. intros l0 v EL _ _. pose proof (slid_series dynamic c l0) as X. unfold SliceProofs2.slid in X. rewrite <- EL, E in X. destruct (series [] l0) as [[[p' i'] r']|]; [|discriminate X].
          injection X as -> -> ->. lia.
        + destruct (at_ b (p ++ Elem (i - size c p) :: r)) as [v|] eqn:EB.
          * destruct (dynamic (loc_names (p ++ Elem (i - size c p) :: r))) eqn:ED.
            -- left. exists (p ++ Elem (i - size c p) :: r), v. split; auto. apply (unslid dynamic c l p i r E H).
            -- right. intros l0 v0 EL EV D0. rewrite (unslid dynamic c l p i r E H) in EL. apply (slid_inj dynamic c _ l0) in EL. subst l0. congruence.
          * right. intros l0 v0 EL EV D0. rewrite (unslid dynamic c l p i r E H) in EL. apply (slid_inj dynamic c _ l0) in EL. subst l0. congruence.
      - assert (SL : slid c l = l) by (unfold SliceProofs2.slid; now rewrite E).
        destruct (at_ b l) as [v|] eqn:EB.
        + destruct (dynamic (loc_names l)) eqn:ED.
          * left. exists l, v. split; auto.
          * right. intros l0 v0 EL EV D0. rewrite <- SL in EL. apply (slid_inj dynamic c _ l0) in EL. subst l0. congruence.
        + right. intros l0 v0 EL EV D0. rewrite <- SL in EL. apply (slid_inj dynamic c _ l0) in EL. subst l0. congruence. }
    destruct CASE as [(l0 & v & -> & EB & ED)|NO].
    + destruct (position_any false l0) as [k0 PO0]. destruct (pr_leaf _ _ PB _ _ EB) as (m2 & dt & nd & L0 & K0 & _).
      pose proof (shift_key_position s c l0 m2 false k0 P (conj SD SZ) L0 PO0) as PS.
      assert (k = shift_key s k0) as -> by (eapply position_fun; eauto).
      assert (I : In (Write k0 v) calls) by (apply writes; eauto). rewrite (I1 _ _ I), (timed_leaf _ _ PO0).
      rewrite (SD _ _ _ L KL PO). rewrite extend_slid_at. unfold new_data. rewrite ED, EB.
      destruct (series [] l0) as [[[p i] r]|] eqn:E.
      * pose proof E as E'. apply series_top in E'. destruct E' as (-> & DP & _).
        assert (HT : has_time dynamic xml_tbp (p ++ Elem i :: r) = false).
        { unfold has_time. rewrite (inside_series dynamic m p i r m2 dt nd K L0 K0 DP). cbn. now rewrite andb_false_r. }
        rewrite HT. reflexivity.
      * assert (SL : slid c l0 = l0) by (unfold SliceProofs2.slid; now rewrite E). rewrite SL. destruct (has_time dynamic xml_tbp l0); reflexivity.
    + rewrite I2.
      * rewrite (SD _ _ _ L KL PO). cbn [SliceSpec.extend at_]. destruct (series [] l) as [[[p i] r]|] eqn:E.
        -- destruct (Nat.ltb_spec i (size c p)) as [H|H]; auto. pose proof E as E'. apply series_top in E'. destruct E' as (EL & DP & _).
           rewrite EL at 1. rewrite (proj1 (outside m c p i r P H)). destruct (dynamic (loc_names l)) eqn:ED; auto.
           destruct (at_ b (p ++ Elem (i - size c p) :: r)) as [v|] eqn:EB; auto.
           destruct (NO _ v (unslid dynamic c l p i r E H) EB). rewrite EL in ED. rewrite <- ED. f_equal. apply loc_names_elem.
        -- assert (SL : slid c l = l) by (unfold SliceProofs2.slid; now rewrite E).
           destruct (dynamic (loc_names l)) eqn:ED; [|unfold has_time; rewrite ED; reflexivity].
           destruct (at_ b l) as [v|] eqn:EB; [destruct (NO l v (eq_sym SL) EB ED)|]. unfold joined, newer. now destruct (has_time dynamic xml_tbp l), (at_ c l).
      * intros k0 v I EK. apply writes in I. destruct I as (l0 & EB & PO0 & ED). destruct (pr_leaf _ _ PB _ _ EB) as (m2 & dt & nd & L0 & K0 & _).
        pose proof (shift_key_position s c l0 m2 false k0 P (conj SD SZ) L0 PO0) as PS. rewrite EK in PS.
        apply (NO l0 v); auto. destruct KL as (dt1 & nd1 & KL). eapply (inj l (slid c l0) m1 m2 false k); eauto using slid_loc_ok; congruence.
  - intros l m1 k L KL PO.
    assert (CASE : (exists l0, l = slid c l0 /\ size b l0 > 0) \/ (forall l0, l = slid c l0 -> size b l0 = 0)).
    { destruct (series [] l) as [[[p i] r]|] eqn:E.
      - destruct (Nat.ltb_spec i (size c p)) as [H|H].
        + right. intros l0 EL. pose proof (slid_series dynamic c l0) as X. rewrite <- EL, E in X. destruct (series [] l0) as [[[p' i'] r']|]; [|discriminate X].
          injection X as -> -> ->. lia.
        + destruct (Nat.eq_dec (size b (p ++ Elem (i - size c p) :: r)) 0) as [Z|Z].
          * right. intros l0 EL. rewrite (unslid dynamic c l p i r E H) in EL. apply (slid_inj dynamic c) in EL. subst l0. auto.
          * left. exists (p ++ Elem (i - size c p) :: r). split; [apply (unslid dynamic c l p i r E H)|lia].
      - assert (SL : slid c l = l) by (unfold SliceProofs2.slid; now rewrite E). destruct (Nat.eq_dec (size b l) 0) as [Z|Z].
        + right. intros l0 EL. rewrite <- SL in EL. apply (slid_inj dynamic c) in EL. now subst l0.
        + left. exists l. split; auto. lia. }
    destruct CASE as [(l0 & -> & EB)|NO].
    + destruct (position_any true l0) as [k0 PO0]. assert (NZ : size b l0 <> 0) by lia. destruct (pr_size _ _ PB _ NZ) as (m2 & L0 & K0 & _).
      pose proof (shift_key_position s c l0 m2 true k0 P (conj SD SZ) L0 PO0) as PS.
      assert (k = shift_key s k0) as -> by (eapply position_fun; eauto).
      assert (I : In (Begin k0 (size b l0)) calls) by (apply begins; eauto). rewrite (I3 _ _ I), (timed_aos _ _ PO0).
      rewrite (SZ _ _ _ L KL PO). rewrite extend_slid_size. unfold new_size. destruct (series [] l0) as [[[p i] r]|] eqn:E.
      * pose proof E as E'. apply series_top in E'. destruct E' as (-> & DP & N0). assert (ZZ : size c (slid c (p ++ Elem i :: r)) = 0).
        { unfold SliceProofs2.slid. rewrite E. apply (outside m c p (size c p + i) r P). lia. }
        rewrite ZZ. destruct (size b (p ++ Elem i :: r)); [lia|reflexivity].
      * assert (SL : slid c l0 = l0) by (unfold SliceProofs2.slid; now rewrite E). rewrite SL. destruct (size c l0) as [|x] eqn:EC.
        -- cbn [Nat.add Nat.eqb]. destruct (dynamic (loc_names l0)); destruct (size b l0); auto; lia.
        -- destruct (dynamic (loc_names l0)) eqn:ED; [reflexivity|]. cbn [Nat.eqb]. rewrite <- (SS l0 E ED); [|lia|lia]. now rewrite EC, RESIZE.
    + rewrite I4.
      * rewrite (SZ _ _ _ L KL PO). cbn [SliceSpec.extend size]. destruct (series [] l) as [[[p i] r]|] eqn:E.
        -- destruct (Nat.ltb_spec i (size c p)) as [H|H]; auto. pose proof E as E'. apply series_top in E'. destruct E' as (EL & DP & _).
           rewrite EL at 1. rewrite (proj2 (outside m c p i r P H)). rewrite (NO _ (unslid dynamic c l p i r E H)). reflexivity.
        -- assert (SL : slid c l = l) by (unfold SliceProofs2.slid; now rewrite E). rewrite (NO l (eq_sym SL)). rewrite Nat.add_0_r.
           destruct (Nat.eqb_spec (size c l) 0) as [Z|Z]; [rewrite Z|]; now destruct (dynamic (loc_names l)).
      * intros k0 j I EK. apply begins in I. destruct I as (l0 & EB & G & PO0). assert (NZ : size b l0 <> 0) by lia. destruct (pr_size _ _ PB _ NZ) as (m2 & L0 & K0 & _).
        pose proof (shift_key_position s c l0 m2 true k0 P (conj SD SZ) L0 PO0) as PS. rewrite EK in PS.
        assert (size b l0 = 0); [|lia]. apply NO. eapply (inj l (slid c l0) m1 m2 true k); eauto using slid_loc_ok; congruence.
Qed.

Lemma step_total : forall s c, proper m c -> stores s c ->
  (forall l u v, at_ c l = Some u -> at_ b l = Some v -> has_time dynamic xml_tbp l = true -> append u v <> None) -> exists s', apply_slices resize s s calls = Ok s'.
Proof.
  intros s c P S H. apply apply_slices_total; [eapply targets_nodup; eauto|]. intros k v u I D T. apply writes in I. destruct I as (l & EB & PO & ED).
  pose proof (contents_proper m (NStruct fs) W CF ST) as PB. destruct (pr_leaf _ _ PB _ _ EB) as (m1 & dt & nd & L & KL & _).
  pose proof (shift_key_position s c l m1 false k P S L PO) as PS. rewrite (timed_leaf _ _ PO) in T.
  assert (SN : series [] l = None).
  { destruct (series [] l) as [[[p i] r]|] eqn:E; auto. exfalso. pose proof E as E'. apply series_top in E'. destruct E' as (-> & DP & _).
    unfold has_time in T. rewrite (inside_series dynamic m p i r m1 dt nd K L KL DP) in T. cbn in T. rewrite andb_false_r in T. discriminate T. }
  assert (SL : slid c l = l) by (unfold SliceProofs2.slid; now rewrite SN). rewrite SL in PS.
  rewrite (proj1 S l m1 _ L) in D; auto; [|do 2 eexists; eauto]. eauto.
Qed.
Lemma step_fit : forall s c s', proper m c -> stores s c -> apply_slices resize s s calls = Ok s' ->
  forall l u v, at_ c l = Some u -> at_ b l = Some v -> has_time dynamic xml_tbp l = true -> append u v <> None.
Proof.
  intros s c s' P S R l u v EC EB HT. pose proof (contents_proper m (NStruct fs) W CF ST) as PB. destruct (pr_leaf _ _ PB _ _ EB) as (m1 & dt & nd & L & KL & _).
  assert (DY : dynamic (loc_names l) = true) by (unfold has_time in HT; destruct (dynamic (loc_names l)); [auto|discriminate HT]).
  assert (SN : series [] l = None).
  { destruct (series [] l) as [[[p i] r]|] eqn:E; auto. exfalso. pose proof E as E'. apply series_top in E'. destruct E' as (-> & DP & _).
    unfold has_time in HT. rewrite (inside_series dynamic m p i r m1 dt nd K L KL DP) in HT. cbn in HT. rewrite andb_false_r in HT. discriminate HT. }
  destruct (position_any false l) as [k PO]. assert (I : In (Write k v) calls) by (apply writes; eauto).
  apply (apply_slices_fit resize calls s s s' R (targets_nodup s c P S) k v u I); [|now rewrite (timed_leaf _ _ PO)].
  pose proof (shift_key_position s c l m1 false k P S L PO) as PS. assert (SL : slid c l = l) by (unfold SliceProofs2.slid; now rewrite SN). rewrite SL in PS.
  rewrite (proj1 S l m1 _ L); auto. do 2 eexists; eauto.
Qed.
End Step.
