(** The operations of ConvModel.v on the target, described by what can be seen of the tree: the filled values and the sizes of the arrays
    of structures. *)
From Verif Require Import Base PathModel PathSpec TreeModel TreeSpec TreeProofs TreeProofs2 TreeProofs4 ValModel ValProofs ValProofs2 ValProofs5 PrimModel PrimSpec PrimProps ConvModel ConvSpec ConvProofs ConvProofs2 ConvProofs3 ConvProofs4 ConvProofs5 ConvProgress ProvModel.
From Verif Require ConvShare2 VmapModel.

Definition upd {A} (f : loc -> A) (l : loc) (a : A) : loc -> A := fun x => if loc_eqb x l then a else f x.
Lemma upd_same : forall A (f : loc -> A) l a, upd f l a l = a.
Proof. intros. unfold upd. rewrite (proj2 (ConvShare2.loc_eqb_spec _ _) eq_refl). reflexivity. Qed.
Lemma upd_other : forall A (f : loc -> A) l a x, x <> l -> upd f l a x = f x.
Proof. intros A f l a x NE. unfold upd. destruct (loc_eqb x l) eqn:E; auto. apply ConvShare2.loc_eqb_spec in E. congruence. Qed.

Section Ops.
Variable tm : meta.
Variable str_of : pyval -> str.
Variable parse_float : str -> option flt.
Variable parse_cpx : str -> option (flt * flt).
Variable flt_of_int : Z -> option flt.
Variable np_cast : dtype -> pyval -> result pexn value.
Variable array_items : value -> list pyval.
Notation assign := (assign tm str_of parse_float parse_cpx flt_of_int np_cast array_items).
Notation assigned := (assigned str_of parse_float parse_cpx flt_of_int np_cast array_items).
Hypothesis Wtm : wf_meta tm.
Hypothesis Stm : str_ok tm.
Hypothesis np_typed : forall dt p v, np_cast dt p = Ok v -> typed_array dt v.

Definition cnt (n : node) (l : loc) : nat := match fsize tm n l with Some k => k | None => 0 end.
Definition sees (s : cst) (V : loc -> option value) (N : loc -> nat) : Prop :=
  conf tm (c_tree s) /\ (forall l, fval tm (c_tree s) l = V l) /\ (forall l, cnt (c_tree s) l = N l).
(** the indices of the location are below the sizes *)
Definition opened (N : loc -> nat) (l : loc) : Prop := forall a i r, l = a ++ Elem i :: r -> i < N a.
Definition does {A} (c : CM A) (V : loc -> option value) (N : loc -> nat) (a : A) (V' : loc -> option value) (N' : loc -> nat) : Prop :=
  forall s, sees s V N -> exists s', c s = (s', Ok a) /\ sees s' V' N'.

Lemma does_bind : forall A B (c : CM A) (f : A -> CM B) V N a V1 N1 b V2 N2, does c V N a V1 N1 -> does (f a) V1 N1 b V2 N2 -> does (cbind c f) V N b V2 N2.
Proof. intros A B c f V N a V1 N1 b V2 N2 H1 H2 s S. destruct (H1 s S) as (s1 & E & S1). unfold cbind. rewrite E. apply H2; auto. Qed.
Lemma does_ret : forall A (a : A) V N, does (cret a) V N a V N.
Proof. intros A a V N s S. exists s. auto. Qed.
Lemma does_ext : forall A (c : CM A) V N a V' N' V'' N'', does c V N a V' N' -> (forall l, V'' l = V' l) -> (forall l, N'' l = N' l) -> does c V N a V'' N''.
Proof. intros A c V N a V' N' V'' N'' H E1 E2 s S. destruct (H s S) as (s' & E & C & F & G). exists s'. split; auto. split; auto. split; intros; [rewrite F|rewrite G]; auto. Qed.
Lemma sees_obs : forall s s' V N, sees s V N -> conf tm (c_tree s') -> same_obs tm (c_tree s) (c_tree s') -> sees s' V N.
Proof. intros s s' V N (C & F & G) C' O. split; auto. split; intros l; destruct (O l) as (O1 & O2); [rewrite O1; auto|]. unfold cnt in *. rewrite O2. apply G. Qed.

Lemma opened_open : forall s V N l m', sees s V N -> loc_ok tm l m' -> opened N l -> open_at tm (c_tree s) l.
Proof.
  intros s V N l m' (C & _ & G) L O a i r E. specialize (O a i r E). rewrite <- G in O. unfold cnt in O. destruct (fsize tm (c_tree s) a) as [k|]; [eauto|lia].
Qed.
Lemma opened_look : forall s V N l m', sees s V N -> loc_ok tm l m' -> opened N l -> exists n', look tm (c_tree s) l = Some (m', n') /\ conf m' n'.
Proof. intros s V N l m' S L O. apply look_open; auto; [apply S|]. eapply opened_open; eauto. Qed.
Lemma opened_nil : forall N, opened N []. Proof. intros N a i r E. destruct a; discriminate. Qed.
Lemma opened_child : forall N l x, opened N l -> opened N (l ++ [Child x]).
Proof.
  intros N l x O a i r E. apply app_eq_app in E as (z & [(-> & E)|(-> & E)]).
  - destruct z as [|y z]; simpl in E; [discriminate|]. injection E as <- _. eapply O. reflexivity.
  - destruct z as [|y z]; [discriminate|]. injection E as _ E. destruct z; discriminate.
Qed.
Lemma opened_elem : forall N l i, opened N l -> i < N l -> opened N (l ++ [Elem i]).
Proof.
  intros N l i O LT a j r E. apply app_eq_app in E as (z & [(-> & E)|(-> & E)]).
  - destruct z as [|y z]; simpl in E.
    + injection E; intros; subst. rewrite app_nil_r in LT. auto.
    + injection E as <- _. eapply O. reflexivity.
  - destruct z as [|y z]; [|injection E as _ E; destruct z; discriminate]. injection E; intros; subst. rewrite app_nil_r. auto.
Qed.
Lemma opened_grow : forall N N' l, opened N l -> (forall a, N a <= N' a) -> opened N' l.
Proof. intros N N' l O LE a i r E. pose proof (O a i r E). pose proof (LE a). lia. Qed.

(** getattr *)
Lemma does_getattr : forall V N l m x mx, loc_ok tm l m -> opened N l -> loc_ok m [Child x] mx -> does (getattr tm l x) V N (l ++ [Child x]) V N.
Proof.
  intros V N l m x mx L O LX s S. destruct (opened_look _ _ _ _ _ S L O) as (n1 & LK & C1).
  apply loc_ok_child in LX as (nm & cs & c & -> & I & <- & LX).
  assert (CM : child_meta (mname c) cs = Some c).
  { apply child_meta_iff; auto. assert (W1 : wf_meta (Meta nm KStruct cs)) by (eapply loc_wf; eauto). inversion W1; auto. }
  assert (E : exists s', getattr tm l (mname c) s = (s', Ok (l ++ [Child (mname c)])) /\ conf tm (c_tree s')).
  { unfold getattr, cview, lift, view, cbind. assert (IA : info_at tm (c_tree s) l = Some (IStruct cs)) by (unfold info_at; rewrite LK; destruct n1; [reflexivity|inversion C1..]).
    rewrite IA. rewrite CM. unfold touch. simpl. eexists. split; [reflexivity|]. simpl. apply access_conf; auto. apply S. }
  destruct E as (s' & E & C'). exists s'. split; auto. eapply sees_obs; eauto.
  pose proof (pres_getattr tm (same_obs tm) (same_obs_refl tm)) as X.
  specialize (X ltac:(intros a b c' A B q; destruct (A q), (B q); split; congruence) ltac:(intros; apply obs_access) l (mname c) s). rewrite E in X. exact X.
Qed.

(** what a data node holds after an assignment *)
Definition stored (dt : dtype) (nd : nat) (v : value) : option value :=
  let o := if (nd =? 0) && is_empty dt v then None else Some v in if leaf_has_value nd o then o else None.
Lemma does_assign : forall V N l nm dt nd cs from p v, loc_ok tm l (Meta nm (KLeaf dt nd) cs) -> opened N l -> not_node p -> assigned dt nd p = Ok v ->
  does (assign l from p) V N tt (upd V l (stored dt nd v)) N.
Proof.
  intros V N l nm dt nd cs from p v L O NN A s S. destruct (opened_look _ _ _ _ _ S L O) as (n1 & LK & C1).
  destruct n1 as [?|?|old]; [inversion C1..|].
  assert (E : fst (assign l from p s) = {| c_tree := update tm (c_tree s) l (fun _ => NLeaf (if (nd =? 0) && is_empty dt v then None else Some v)); c_shared := c_shared (fst (assign l from p s)) |} /\ snd (assign l from p s) = Ok tt).
  { unfold ConvModel.assign. rewrite LK. unfold PrimModel.set_value. rewrite A. simpl. auto. }
  destruct E as (E1 & E2). destruct (assign l from p s) as [s' r] eqn:E. simpl in E1, E2. subst r. exists s'. split; auto.
  pose proof (conf_assign tm str_of parse_float parse_cpx flt_of_int np_cast array_items (fun _ _ => true) Wtm Stm np_typed l from p s NN) as CA. rewrite E in CA. simpl in CA.
  destruct S as (C & F & G). split; [auto|].
  assert (TR : c_tree s' = update tm (c_tree s) l (fun _ => NLeaf (if (nd =? 0) && is_empty dt v then None else Some v))) by (rewrite E1; reflexivity).
  assert (HERE : look tm (c_tree s') l = Some (Meta nm (KLeaf dt nd) cs, NLeaf (if (nd =? 0) && is_empty dt v then None else Some v))).
  { rewrite TR. pose proof (look_update l tm (c_tree s) (fun _ => NLeaf (if (nd =? 0) && is_empty dt v then None else Some v)) [] _ _ LK) as X. rewrite app_nil_r in X. exact X. }
  assert (OTHER : forall q, q <> l -> fval tm (c_tree s') q = fval tm (c_tree s) q /\ fsize tm (c_tree s') q = fsize tm (c_tree s) q).
  { intros q NE. rewrite TR. eapply obs_set_leaf; eauto. }
  split; intros q; destruct (loc_dec q l) as [->|NE].
  - rewrite upd_same. unfold fval. rewrite HERE. reflexivity.
  - rewrite upd_other by auto. destruct (OTHER q NE) as (-> & _). auto.
  - rewrite <- G. unfold cnt, fsize. rewrite HERE, LK. reflexivity.
  - rewrite <- G. unfold cnt. destruct (OTHER q NE) as (_ & ->). reflexivity.
Qed.

(** reading a data node: a value that is filled, or an empty one *)
Definition reads_as (dt : dtype) (nd : nat) (o : option value) (v : value) : Prop :=
  match o with Some w => v = w | None => v = default_value dt nd \/ leaf_has_value nd (Some v) = false end.
Lemma does_read : forall V N l nm dt nd cs, loc_ok tm l (Meta nm (KLeaf dt nd) cs) -> opened N l ->
  forall s, sees s V N -> exists s' v, target_value tm l s = (s', Ok v) /\ sees s' V N /\ reads_as dt nd (V l) v.
Proof.
  intros V N l nm dt nd cs L O s S. destruct (opened_look _ _ _ _ _ S L O) as (n1 & LK & C1). destruct n1 as [?|?|old]; [inversion C1..|].
  assert (E : exists v, target_value tm l s = ({| c_tree := access tm (c_tree s) l; c_shared := c_shared s |}, Ok v) /\ v = leaf_value (Meta nm (KLeaf dt nd) cs) (NLeaf old)).
  { unfold target_value, cview, lift, view, cbind. assert (IA : exists i, info_at tm (c_tree s) l = Some (ILeaf nd i) /\ i = leaf_value (Meta nm (KLeaf dt nd) cs) (NLeaf old)) by (unfold info_at; rewrite LK; eexists; split; reflexivity).
    destruct IA as (i & IA & ->). rewrite IA. unfold read. cbn [c_tree]. rewrite info_access, IA. eauto. }
  destruct E as (v & E & EV). eexists. exists v. split; [exact E|]. split.
  - eapply sees_obs; eauto; [apply access_conf; auto; apply S|apply obs_access].
  - destruct S as (_ & F & _). rewrite <- F. unfold fval. rewrite LK. unfold reads_as. destruct old as [w|]; simpl in EV.
    + destruct (leaf_has_value nd (Some w)) eqn:H; subst; auto.
    + simpl. auto.
Qed.

(** arrays of structures *)
Lemma does_length : forall V N l nm cs, loc_ok tm l (Meta nm KAoS cs) -> opened N l -> does (length_of tm l) V N (N l) V N.
Proof.
  intros V N l nm cs L O s S. destruct (opened_look _ _ _ _ _ S L O) as (n1 & LK & C1). destruct n1 as [?|els|?]; [inversion C1| |inversion C1].
  exists s. split; auto. unfold length_of, cbind, cview, lift, view. assert (IA : info_at tm (c_tree s) l = Some (IAoS (length els))) by (unfold info_at; rewrite LK; reflexivity).
  rewrite IA. destruct S as (_ & _ & G). rewrite <- G. unfold cnt, fsize. rewrite LK. destruct s. reflexivity.
Qed.
Lemma does_has : forall V N l nm cs x, loc_ok tm l (Meta nm KStruct cs) -> opened N l ->
  does (has_child tm l x) V N (match child_meta x cs with Some _ => true | None => false end) V N.
Proof.
  intros V N l nm cs x L O s S. destruct (opened_look _ _ _ _ _ S L O) as (n1 & LK & C1). destruct n1 as [fs|?|?]; [|inversion C1..].
  exists s. split; auto. unfold has_child, cbind, cview, lift, view. assert (IA : info_at tm (c_tree s) l = Some (IStruct cs)) by (unfold info_at; rewrite LK; reflexivity).
  rewrite IA. destruct s. reflexivity.
Qed.

Lemma new_blank : forall r m, fval m (new_node m) r = None /\ (forall k, fsize m (new_node m) r = Some k -> k = 0).
Proof.
  induction r as [|[x|i] r IH]; intros [nm k cs].
  - unfold fval, fsize. destruct k; simpl; split; auto; intros k E; try discriminate. injection E as <-. reflexivity.
  - unfold fval, fsize. destruct k; simpl; try (split; [reflexivity|discriminate]).
    destruct (child_meta x cs) as [c|]; [|split; [reflexivity|discriminate]]. apply (IH c).
  - unfold fval, fsize. destruct k; simpl; try (split; [reflexivity|discriminate]). destruct i; split; try reflexivity; discriminate.
Qed.
Lemma blank_struct : forall r nm cs, fval (Meta nm KStruct cs) (NStruct []) r = None /\ (forall k, fsize (Meta nm KStruct cs) (NStruct []) r = Some k -> k = 0).
Proof. intros r nm cs. exact (new_blank r (Meta nm KStruct cs)). Qed.

(** a new last element, or any larger size *)
Lemma does_grow : forall V N l nm cs k, loc_ok tm l (Meta nm KAoS cs) -> opened N l -> N l <= k -> does (resize_keep tm l k) V N tt V (upd N l k).
Proof.
  intros V N l nm cs k L O LE s S. destruct (opened_look _ _ _ _ _ S L O) as (n1 & LK & C1). destruct n1 as [?|els|?]; [inversion C1| |inversion C1].
  destruct S as (C & F & G).
  assert (NL : N l = length els) by (rewrite <- G; unfold cnt, fsize; rewrite LK; reflexivity).
  eexists. split; [unfold resize_keep; rewrite LK; reflexivity|].
  rewrite firstn_all2 by lia. set (els' := els ++ repeat (NStruct []) (k - length els)).
  assert (LEN : length els' = k) by (unfold els'; rewrite app_length, repeat_length; lia).
  assert (LU : forall r, look tm (update tm (c_tree s) l (fun _ => NAoS els')) (l ++ r) = look (Meta nm KAoS cs) (NAoS els') r).
  { intros r. eapply (look_update l tm (c_tree s) (fun _ => NAoS els')); eauto. }
  split; [|cbn [c_tree]; split].
  - cbn [c_tree]. eapply conf_update; eauto. constructor. intros e I. unfold els' in I. apply in_app_or in I as [I|I].
    + inversion C1 as [| | |n0 c0 e0 HE]. auto.
    + apply repeat_spec in I. subst e. apply (new_node_conf (Meta nm KStruct cs)).
  - intros q. destruct (within_dec l q) as [(r & ->)|NW].
    + rewrite <- F. unfold fval at 1. rewrite LU. unfold fval. rewrite look_app, LK. destruct r as [|[x|i] r]; try reflexivity. simpl. unfold els'.
      destruct (lt_dec i (length els)) as [LT|GE].
      * rewrite nth_error_app1 by auto. reflexivity.
      * rewrite nth_error_app2 by lia. rewrite (proj2 (nth_error_None els i)) by lia.
        destruct (nth_error (repeat (NStruct []) (k - length els)) (i - length els)) as [e|] eqn:E; [|reflexivity].
        apply nth_error_In, repeat_spec in E. subst e. apply (blank_struct r nm cs).
    + rewrite <- F. apply obs_update. auto.
  - intros q. destruct (within_dec l q) as [(r & ->)|NW].
    + destruct r as [|st r].
      * rewrite app_nil_r, upd_same. unfold cnt, fsize. pose proof (LU []) as X. rewrite app_nil_r in X. rewrite X. exact LEN.
      * rewrite upd_other by (intros E; rewrite <- (app_nil_r l) in E at 2; apply app_inv_head in E; discriminate).
        rewrite <- G. unfold cnt. unfold fsize at 1. rewrite LU. unfold fsize. rewrite look_app, LK. destruct st as [x|i]; try reflexivity. simpl. unfold els'.
        destruct (lt_dec i (length els)) as [LT|GE].
        -- rewrite nth_error_app1 by auto. reflexivity.
        -- rewrite nth_error_app2 by lia. rewrite (proj2 (nth_error_None els i)) by lia.
           destruct (nth_error (repeat (NStruct []) (k - length els)) (i - length els)) as [e|] eqn:E; [|reflexivity].
           apply nth_error_In, repeat_spec in E. subst e. destruct (blank_struct r nm cs) as (_ & Z).
           unfold fsize in Z. destruct (look (Meta nm KStruct cs) (NStruct []) r) as [[[? [| |] ?] [?|e|?]]|]; auto.
    + rewrite upd_other by (intros ->; apply NW, within_refl). rewrite <- G. unfold cnt. destruct (obs_update l tm (c_tree s) (fun _ => NAoS els') q NW) as (_ & E). rewrite E. reflexivity.
Qed.

(** a string at the end of a list of strings *)
Definition strings (o : option value) : list str := match o with Some (VStrs l) => l | _ => [] end.
Lemma does_append : forall V N l nm cs t, loc_ok tm l (Meta nm (KLeaf STR 1) cs) -> opened N l ->
  does (append_str tm str_of l (PStr t)) V N tt (upd V l (Some (VStrs (strings (V l) ++ [t])))) N.
Proof.
  intros V N l nm cs t L O s S. destruct (opened_look _ _ _ _ _ S L O) as (n1 & LK & C1). destruct n1 as [?|?|old]; [inversion C1..|].
  destruct S as (C & F & G).
  assert (OLD : exists ls, (snd (get_value STR 1 old) = VStrs ls) /\ strings (V l) = ls).
  { rewrite <- F. unfold fval. rewrite LK. destruct old as [v|]; [|exists []; auto].
    inversion C1 as [|? ? ? ? ? VO| |]; subst. inversion VO; subst; try discriminate. exists l0. split; auto. destruct l0; reflexivity. }
  destruct OLD as (ls & E1 & E2).
  assert (AP : append str_of old (PStr t) = (Some (VStrs (ls ++ [t])), Ok tt)).
  { unfold PrimModel.append. destruct (get_value STR 1 old) as [st v] eqn:GV. simpl in E1. subst v. reflexivity. }
  eexists. split; [unfold append_str; rewrite LK, AP; reflexivity|]. cbn [c_tree].
  assert (HERE : look tm (update tm (c_tree s) l (fun _ => NLeaf (Some (VStrs (ls ++ [t]))))) l = Some (Meta nm (KLeaf STR 1) cs, NLeaf (Some (VStrs (ls ++ [t]))))).
  { pose proof (look_update l tm (c_tree s) (fun _ => NLeaf (Some (VStrs (ls ++ [t])))) [] _ _ LK) as X. rewrite app_nil_r in X. exact X. }
  split; [|split].
  - cbn [c_tree]. eapply conf_update; eauto. constructor. constructor.
  - cbn [c_tree]. intros q. destruct (loc_dec q l) as [->|NE].
    + rewrite upd_same, E2. unfold fval. rewrite HERE. unfold leaf_has_value, leaf_size. simpl. rewrite app_length, Nat.add_comm. reflexivity.
    + rewrite upd_other, <- F by auto. eapply obs_set_leaf; eauto.
  - cbn [c_tree]. intros q. rewrite <- G. unfold cnt. destruct (loc_dec q l) as [->|NE].
    + unfold fsize. rewrite HERE, LK. reflexivity.
    + destruct (obs_set_leaf tm (c_tree s) l nm STR 1 cs old (Some (VStrs (ls ++ [t]))) q LK NE) as (_ & ->). reflexivity.
Qed.
End Ops.
