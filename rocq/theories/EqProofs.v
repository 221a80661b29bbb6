(** The contour tree of one time slice: the nodes as a list of partially filled structures. *)
From Verif Require Import Base PathModel PathSpec TreeModel TreeSpec TreeProofs TreeProofs2 TreeProofs4 ValModel ValProofs ValProofs2 ValProofs5 PrimModel PrimSpec PrimProps ConvModel ConvSpec ConvProofs ConvProofs2 ConvProofs3 ConvProofs4 ConvProofs5 ConvProgress ProvModel TargetOps EqModel.
From Verif Require ConvShare2.

(** ** Locations below a location *)
Fixpoint strip (l q : loc) : option loc :=
  match l, q with
  | [], q => Some q
  | a :: l, b :: q => if loc_eqb [a] [b] then strip l q else None
  | _ :: _, [] => None
  end.
Lemma strip_spec : forall l q r, strip l q = Some r <-> q = l ++ r.
Proof.
  induction l as [|a l IH]; intros q r; simpl; [split; congruence|]. destruct q as [|b q]; [split; discriminate|].
  change (match a with Child s => match b with Child t => str_eqb s t | Elem _ => false end | Elem i => match b with Child _ => false | Elem j => i =? j end end && true) with (loc_eqb [a] [b]).
  destruct (loc_eqb [a] [b]) eqn:E.
  - apply ConvShare2.loc_eqb_spec in E. injection E as <-. rewrite IH. split; congruence.
  - split; [discriminate|]. intros H. injection H as -> _. rewrite (proj2 (ConvShare2.loc_eqb_spec _ _) eq_refl) in E. discriminate.
Qed.
Lemma strip_app : forall l r, strip l (l ++ r) = Some r. Proof. intros. apply strip_spec. reflexivity. Qed.
Lemma strip_none : forall l q, strip l q = None <-> ~ within l q.
Proof.
  intros l q. destruct (strip l q) as [r|] eqn:E; split; try discriminate; auto.
  - intros NW. exfalso. apply NW. exists r. apply strip_spec. auto.
  - intros _ (r & H). apply strip_spec in H. congruence.
Qed.

(** ** A list of structures in place of what is at a location *)
Definition blank : loc -> option value := fun _ => None.
Definition ov (V : loc -> option value) (nl : loc) (pts : list (loc -> option value)) : loc -> option value :=
  fun q => match strip nl q with
           | Some (Elem i :: r) => match nth_error pts i with Some p => p r | None => None end
           | Some _ => None
           | None => V q
           end.
Definition on (N : loc -> nat) (nl : loc) (k : nat) : loc -> nat :=
  fun q => match strip nl q with Some [] => k | Some _ => 0 | None => N q end.
Definition setp (pts : list (loc -> option value)) (i : nat) (r : loc) (o : option value) : list (loc -> option value) :=
  list_set i (upd (nth i pts blank) r o) pts.

Lemma ov_set : forall V nl pts i r o, i < length pts -> forall q, upd (ov V nl pts) (nl ++ Elem i :: r) o q = ov V nl (setp pts i r o) q.
Proof.
  intros V nl pts i r o LT q. unfold ov at 2, setp. destruct (loc_dec q (nl ++ Elem i :: r)) as [->|NE].
  - rewrite upd_same, strip_app, nth_error_list_set, Nat.eqb_refl. destruct (nth_error pts i) eqn:E; [rewrite upd_same; reflexivity|]. apply nth_error_None in E. lia.
  - rewrite upd_other by auto. unfold ov. destruct (strip nl q) as [[|[x|j] t]|] eqn:E; auto. rewrite nth_error_list_set. destruct (Nat.eqb_spec i j) as [<-|]; auto.
    apply strip_spec in E. destruct (nth_error pts i) as [p|] eqn:EN; auto. rewrite upd_other by congruence. erewrite nth_error_nth by eauto. reflexivity.
Qed.
Lemma on_set : forall N nl pts i r o q, on N nl (length (setp pts i r o)) q = on N nl (length pts) q.
Proof. intros. unfold setp. rewrite list_set_length. reflexivity. Qed.
Lemma ov_grow : forall V nl pts q, ov V nl (pts ++ [blank]) q = ov V nl pts q.
Proof.
  intros. unfold ov. destruct (strip nl q) as [[|[x|i] t]|]; auto. destruct (lt_dec i (length pts)) as [L|G]; [rewrite nth_error_app1 by auto; reflexivity|].
  rewrite nth_error_app2 by lia. rewrite (proj2 (nth_error_None pts i)) by lia. destruct (i - length pts) as [|[|?]]; reflexivity.
Qed.
Lemma on_upd : forall N nl k k' q, upd (on N nl k) nl k' q = on N nl k' q.
Proof.
  intros N nl k k' q. destruct (loc_dec q nl) as [->|NE].
  - rewrite upd_same. unfold on. pose proof (strip_app nl []) as X. rewrite app_nil_r in X. rewrite X. reflexivity.
  - rewrite upd_other by auto. unfold on. destruct (strip nl q) as [[|? ?]|] eqn:E; auto. apply strip_spec in E. rewrite app_nil_r in E. congruence.
Qed.
Definition same_points (a b : list (loc -> option value)) : Prop := Forall2 (fun f g => forall r, f r = g r) a b.
Lemma ov_same : forall V nl a b, same_points a b -> forall q, ov V nl a q = ov V nl b q.
Proof.
  intros V nl a b H q. unfold ov. destruct (strip nl q) as [[|[x|i] t]|]; auto. revert i. induction H as [|f g a b E H IH]; intros [|i]; simpl; auto.
Qed.

Section Ops.
Variable tm : meta.
Variable str_of : pyval -> str.
Variable parse_float : str -> option flt.
Variable parse_cpx : str -> option (flt * flt).
Variable flt_of_int : Z -> option flt.
Variable np_cast : dtype -> pyval -> result pexn value.
Variable array_items : value -> list pyval.
Notation assigned := (assigned str_of parse_float parse_cpx flt_of_int np_cast array_items).
Notation put := (put tm str_of parse_float parse_cpx flt_of_int np_cast array_items).
Hypothesis Wtm : wf_meta tm.
Hypothesis Stm : str_ok tm.
Hypothesis np_typed : forall dt p v, np_cast dt p = Ok v -> typed_array dt v.
Notation does := (does tm).

(** [resize(k)] *)
Lemma does_resize : forall V N l nm cs k, loc_ok tm l (Meta nm KAoS cs) -> opened N l -> does (resize tm l k) V N tt (ov V l (repeat blank k)) (on N l k).
Proof.
  intros V N l nm cs k L O s S. destruct (opened_look tm Wtm _ _ _ _ _ S L O) as (n1 & LK & C1). destruct n1 as [?|els|?]; [inversion C1| |inversion C1].
  pose proof S as (C & F & G).
  eexists. split; [unfold resize; rewrite LK; reflexivity|].
  pose proof (conf_resize tm Wtm l k s C) as C'. unfold resize in C'. rewrite LK in C'. cbn [fst c_tree] in C'.
  assert (LU : forall r, look tm (update tm (c_tree s) l (fun _ => NAoS (repeat (NStruct []) k))) (l ++ r) = look (Meta nm KAoS cs) (NAoS (repeat (NStruct []) k)) r).
  { intros r. eapply (look_update l tm (c_tree s) (fun _ => NAoS (repeat (NStruct []) k))); eauto. }
  split; [exact C'|]. cbn [c_tree]. split; intros q.
  - unfold ov. destruct (strip l q) as [r|] eqn:E.
    + apply strip_spec in E. subst q. unfold fval. rewrite LU. destruct r as [|[x|i] r]; try reflexivity. simpl.
      destruct (nth_error (repeat (NStruct []) k) i) as [e|] eqn:E1.
      * apply nth_error_In, repeat_spec in E1. subst e. pose proof (blank_struct r nm cs) as (Z & _). unfold fval in Z. rewrite Z.
        destruct (nth_error (repeat blank k) i) as [p|] eqn:E2; auto. apply nth_error_In, repeat_spec in E2. subst p. reflexivity.
      * destruct (nth_error (repeat blank k) i) as [p|] eqn:E2; auto. apply nth_error_In, repeat_spec in E2. subst p. reflexivity.
    + apply strip_none in E. rewrite <- F. apply obs_update. auto.
  - unfold on. destruct (strip l q) as [r|] eqn:E.
    + apply strip_spec in E. subst q. unfold cnt, fsize. rewrite LU. destruct r as [|[x|i] r]; [simpl; apply repeat_length|reflexivity|]. simpl.
      destruct (nth_error (repeat (NStruct []) k) i) as [e|] eqn:E1; auto.
      apply nth_error_In, repeat_spec in E1. subst e. pose proof (blank_struct r nm cs) as (_ & Z). unfold fsize in Z.
      destruct (look (Meta nm KStruct cs) (NStruct []) r) as [[[? [| |] ?] [?|e|?]]|]; auto.
    + apply strip_none in E. rewrite <- G. unfold cnt. destruct (obs_update l tm (c_tree s) (fun _ => NAoS (repeat (NStruct []) k)) q E) as (_ & ->). reflexivity.
Qed.

Lemma does_getattrs : forall V N p l m', loc_ok tm (l ++ names p) m' -> opened N l -> does (getattrs tm l p) V N (l ++ names p) V N.
Proof.
  intros V N p. induction p as [|x p IH]; intros l m' L O; cbn [getattrs names map].
  - rewrite app_nil_r. apply does_ret.
  - change (l ++ Child (strs x) :: map (fun x => Child (strs x)) p) with (l ++ [Child (strs x)] ++ names p). rewrite app_assoc.
    change (names (x :: p)) with ([Child (strs x)] ++ names p) in L. rewrite app_assoc in L.
    pose proof (loc_ok_split (l ++ [Child (strs x)]) _ _ _ L) as (m1 & L1 & _). pose proof (loc_ok_split l _ _ _ L1) as (m0 & L0 & LX).
    eapply does_bind; [eapply (does_getattr tm Wtm Stm V N); eauto|]. eapply IH; eauto. apply opened_child. auto.
Qed.

(** ** The nodes *)
Variable V0 : loc -> option value.
Variable N0 : loc -> nat.
Variable nl : loc.
Variables (nm : str) (cs : list meta).
Hypothesis Lnl : loc_ok tm nl (Meta nm KAoS cs).
Hypothesis Onl : opened N0 nl.
Definition pdo {A} (c : CM A) (pts : list (loc -> option value)) (a : A) (pts' : list (loc -> option value)) : Prop :=
  does c (ov V0 nl pts) (on N0 nl (length pts)) a (ov V0 nl pts') (on N0 nl (length pts')).

Lemma pdo_bind : forall A B (c : CM A) (f : A -> CM B) p a p1 b p2, pdo c p a p1 -> pdo (f a) p1 b p2 -> pdo (cbind c f) p b p2.
Proof. intros. eapply does_bind; eauto. Qed.
Lemma pdo_ret : forall A (a : A) p, pdo (cret a) p a p. Proof. intros. apply does_ret. Qed.
Lemma opened_on : forall k, opened (on N0 nl k) nl.
Proof.
  intros k a i r E. pose proof (Onl a i r E) as H. unfold on. destruct (strip nl a) as [t|] eqn:S; auto. exfalso.
  apply strip_spec in S. subst a. apply (f_equal (@length _)) in E. rewrite !app_length in E. simpl in E. lia.
Qed.
Lemma on_here : forall k, on N0 nl k nl = k.
Proof. intros k. unfold on. pose proof (strip_app nl []) as X. rewrite app_nil_r in X. rewrite X. reflexivity. Qed.
Lemma opened_node : forall k i, i < k -> opened (on N0 nl k) (nl ++ [Elem i]).
Proof. intros k i LT. apply opened_elem; [apply opened_on|]. rewrite on_here. auto. Qed.
Lemma opened_names : forall N p l, opened N l -> opened N (l ++ names p).
Proof.
  intros N p. induction p as [|x p IH]; intros l O; [rewrite app_nil_r; auto|]. change (names (x :: p)) with ([Child (strs x)] ++ names p). rewrite app_assoc. apply IH, opened_child. auto.
Qed.

Lemma pdo_put : forall pts i p from v w ln dt nd lc, i < length pts -> loc_ok (Meta nm KStruct cs) (names p) (Meta ln (KLeaf dt nd) lc) -> not_node v -> assigned dt nd v = Ok w ->
  pdo (put (nl ++ [Elem i]) p from v) pts tt (setp pts i (names p) (stored dt nd w)).
Proof.
  intros pts i p from v w ln dt nd lc LT LP NN A. unfold EqModel.put, pdo.
  assert (L : loc_ok tm ((nl ++ [Elem i]) ++ names p) (Meta ln (KLeaf dt nd) lc)).
  { eapply loc_ok_app; eauto. eapply loc_ok_app; eauto. constructor. constructor. }
  eapply does_bind; [eapply does_getattrs; eauto; apply opened_node; auto|].
  eapply does_ext; [eapply (does_assign tm str_of parse_float parse_cpx flt_of_int np_cast array_items Wtm Stm np_typed); eauto; apply opened_names, opened_node; auto| |].
  - intros q. rewrite <- app_assoc. symmetry. apply (ov_set V0 nl pts i (names p) (stored dt nd w) LT q).
  - intros q. apply on_set.
Qed.
Lemma pdo_length : forall pts, pdo (length_of tm nl) pts (length pts) pts.
Proof. intros pts s S. destruct (does_length tm Wtm _ _ nl nm cs Lnl (opened_on (length pts)) s S) as (s' & E & S'). rewrite on_here in E. eauto. Qed.
Lemma pdo_grow : forall pts, pdo (resize_keep tm nl (S (length pts))) pts tt (pts ++ [blank]).
Proof.
  intros pts. unfold pdo. eapply does_ext.
  - eapply (does_grow tm parse_float parse_cpx flt_of_int Wtm _ _ nl nm cs (S (length pts)) Lnl (opened_on _)). rewrite on_here. lia.
  - intros q. apply ov_grow.
  - intros q. rewrite app_length, Nat.add_1_r. symmetry. apply on_upd.
Qed.
Lemma pdo_same : forall A (c : CM A) p a p1 p2, pdo c p a p1 -> same_points p1 p2 -> pdo c p a p2.
Proof.
  intros A c p a p1 p2 H S. eapply does_ext; [exact H| |].
  - intros q. symmetry. apply ov_same. auto.
  - intros q. assert (E : length p1 = length p2) by (clear H; induction S; simpl; congruence). rewrite E. reflexivity.
Qed.
End Ops.
