(** Property theorems about IDS nodes as objects (C03, C05, C07, C08, C09, C10). *)
From Verif Require Import Base TreeModel TreeSpec TreeCheck TreeProofs PathModel HeapModel HeapSpec HeapProofs HeapProofs2 HeapProofs4 HeapProofs6 HeapProofs7
  HeapProofs8 HeapProofs9 HeapProofs10 HeapProofs11 HeapProofs12 HeapProofs13.
From Verif Require PathSpec PathProofs3.

(** A dictionary used in the examples: an IDS with an array of structures [a] (elements with a string [x] and an array [v]), a
    structure [sub] with an array of structures [b], and a structure [o] with an integer [n]. *)
Definition ex_leaf (n : string) (dt : dtype) (nd : nat) : meta := Meta (strs n) (KLeaf dt nd) [].
Definition ex_meta : meta :=
  Meta (strs "ids") KStruct
    [Meta (strs "a") KAoS [ex_leaf "x" STR 0; ex_leaf "v" FLT 1];
     Meta (strs "sub") KStruct [Meta (strs "b") KAoS [ex_leaf "w" INT 0]];
     Meta (strs "o") KStruct [ex_leaf "n" INT 0]].
Definition ex_cast (_ : dtype) (_ : nat) (v : value) : result exn value := Ok v.
Definition empty_heap : heap := {| h_objs := []; h_bufs := [] |}.
Definition ex_run := run ex_cast empty_heap [].
Lemma ex_meta_wf : wf_meta ex_meta.
Proof. by_check. Qed.

Section WithCast.
Variable cast : dtype -> nat -> value -> result exn value.

(** ** C07: resize.  [l]: the elements before. *)
Theorem C07_resize : forall h a ob l n keep, get h a = Some ob -> o_body ob = BAoS l -> (0 <= n)%Z ->
  exists h' l', resize h a n keep = (h', Ok tt) /\ elems h' a l' /\ Z.of_nat (length l') = n /\
    (** the first elements are the same objects, *)
    (keep = true -> forall i, i < length l -> i < length l' -> nth_error l' i = nth_error l i) /\
    (** all others are different new empty structures of this array *)
    (forall i e, nth_error l' i = Some e -> keep = false \/ length l <= i ->
       length (h_objs h) <= e /\ get h' e = Some {| o_parent := Some a; o_path := o_path ob; o_meta := o_meta ob; o_body := BStruct [] |} /\
       forall j, nth_error l' j = Some e -> length l <= j \/ keep = false -> i = j) /\
    (** and no other node and no data changes. *)
    (forall z, z < length (h_objs h) -> z <> a -> get h' z = get h z) /\ h_bufs h' = h_bufs h /\
    (exists ob', get h' a = Some ob' /\ o_parent ob' = o_parent ob /\ o_path ob' = o_path ob /\ o_meta ob' = o_meta ob).
Proof.
  intros h a ob l n keep G B Ln. destruct (resize h a n keep) as (h', r) eqn:E.
  destruct (resize_spec _ _ _ _ _ _ _ _ G B E) as [(X & _)|(_ & -> & kept & new & Hk & El & Hs & Len & Hb & Ho & Ha & He)]; [lia|].
  exists h', (kept ++ new). split; auto. split; auto. split; auto.
  assert (Lk : keep = true -> length kept = Nat.min (Z.to_nat n) (length l)) by (intros ->; rewrite Hk; apply firstn_length).
  assert (New : forall i e, nth_error (kept ++ new) i = Some e -> keep = false \/ length l <= i ->
                 exists i', i = length kept + i' /\ nth_error new i' = Some e /\ e = length (h_objs h) + i').
  { intros i e Ne Hi. assert (L : length kept <= i).
    { destruct keep; [|subst kept; simpl; lia]. specialize (Lk eq_refl). destruct Hi as [Hi|Hi]; [discriminate|]. lia. }
    rewrite nth_error_app2 in Ne by auto. exists (i - length kept). split; [lia|]. split; auto.
    assert (Li : i - length kept < length new) by (apply nth_error_Some; congruence).
    rewrite Hs in Ne. apply nth_error_nth with (d := 0) in Ne. rewrite seq_nth in Ne by auto. congruence. }
  split; [|split; [|auto]].
  - intros -> i Li Li'. rewrite app_length in *. specialize (Lk eq_refl). rewrite nth_error_app1 by lia. subst kept. apply nth_error_firstn. lia.
  - intros i e Ne Hi. destruct (New i e Ne Hi) as (i' & Ei & Ni & Ee). split; [lia|]. split.
    + apply He. eapply nth_error_In; eauto.
    + intros j Nj Hj. destruct (New j e Nj ltac:(tauto)) as (j' & Ej & _ & Ee'). lia.
Qed.

Theorem C07_negative_refused : forall h a n keep, (n < 0)%Z -> resize h a n keep = (h, Err EValue).
Proof. intros h a n keep L. unfold resize. apply Z.ltb_lt in L. now rewrite L. Qed.

(** ** C08: whatever operations are performed (on this array or on anything else), the array behaves as the mathematical list
    of its elements. *)
Theorem C08_list_refinement : forall a ops h l, elems h a l ->
  exists h' l', h' = fold_left (fun h o => fst (exec cast h o)) ops h /\ elems h' a l' /\ list_run cast a h l ops h' l'.
Proof. exact (run_elems cast). Qed.

Theorem C08_length : forall h a l, elems h a l <-> (exists ob, get h a = Some ob /\ o_body ob = BAoS l /\ aos_len h a = Some (length l)).
Proof.
  intros h a l. split; intros (ob & G & B).
  - exists ob. split; auto. split; auto. unfold aos_len. now rewrite G, B.
  - exists ob. tauto.
Qed.

(** An access or assignment outside of the list changes nothing at all. *)
Theorem C08_out_of_range : forall h a l i v, elems h a l -> ~ (- Z.of_nat (length l) <= i < Z.of_nat (length l))%Z ->
  exec cast h (OGetItem (HO a) i) = (h, Err EIndex) /\ exec cast h (OSetItem (HO a) i (HO v)) = (h, Err EIndex).
Proof.
  intros h a l i v (ob & G & B) N. apply py_index_none in N. simpl. unfold aos_getitem, aos_setitem. rewrite G, B, N. auto.
Qed.

(** ** C09 *)
(** Histories in which nodes are only inserted when they are in no container yet: the parent of every node is its container,
    which is unique (as is the place in it), and there are no cycles. *)
Theorem C09_parent_is_container : forall h, history cast h ->
  (forall c s x, slot h c s x -> parent h x = Some c) /\
  (forall c s c' s' x, slot h c s x -> slot h c' s' x -> c = c' /\ s = s') /\
  (forall c x, contained h c x -> ~ reach h x c).
Proof.
  intros h H. destruct (history_inv cast h H) as ((T & _) & _). split; [exact (t_parent _ T)|]. split; [|exact (t_acyclic _ T)].
  intros c s c' s' x S S'. pose proof (t_parent _ T _ _ _ S) as P1. pose proof (t_parent _ T _ _ _ S') as P2. rewrite P1 in P2. inversion P2; subst.
  split; auto. exact (t_once _ T _ _ _ _ S S').
Qed.

(** ** C05: the full path of any node of an IDS, evaluated from the IDS, gives that node. *)
Theorem C05_own_path : forall h r x, history cast h -> names_ok h -> toplevel h r -> reach h r x ->
  exists s fuel, (forall g, fuel <= g -> path_str g h x = Some s) /\ goto_str s h r true = (h, Ok x).
Proof.
  intros h r x H Nm Tr R. destruct (history_inv cast h H) as ((T & _) & Sh). destruct (goto_path h T Sh Nm r x Tr R) as (st & f & _ & P & G).
  exists (PathSpec.print_steps false st), f. auto.
Qed.

(** ... it is the sequence of names and indices of the place of the node, *)
Theorem C05_path_is_location : forall h r x, history cast h -> names_ok h -> toplevel h r -> reach h r x ->
  exists st fuel, located h r (steps_loc st) x /\ forall g, fuel <= g -> path_str g h x = Some (PathSpec.print_steps false st).
Proof.
  intros h r x H Nm Tr R. destruct (history_inv cast h H) as ((T & _) & Sh). destruct (goto_path h T Sh Nm r x Tr R) as (st & f & L & P & _). eauto.
Qed.

(** ... and different nodes have different paths. *)
Theorem C05_distinct_paths : forall h r x y f g s, history cast h -> names_ok h -> toplevel h r -> reach h r x -> reach h r y ->
  path_str f h x = Some s -> path_str g h y = Some s -> x = y.
Proof.
  intros h r x y f g s H Nm Tr Rx Ry Px Py.
  destruct (C05_own_path h r x H Nm Tr Rx) as (sx & fx & Ex & Gx). destruct (C05_own_path h r y H Nm Tr Ry) as (sy & fy & Ey & Gy).
  pose proof (Ex (f + fx) ltac:(lia)) as X1. rewrite (path_more h f (f + fx) x s Px) in X1 by lia. inversion X1; subst sx.
  pose proof (Ey (g + fy) ltac:(lia)) as Y1. rewrite (path_more h g (g + fy) y s Py) in Y1 by lia. inversion Y1; subst sy.
  rewrite Gx in Gy. congruence.
Qed.

(** ** C03: what a Fortran style index does, for every array: i >= 1 is element i - 1 (counting from 0), and 0 is not refused
    but is the last element. *)
Theorem C03_fortran_index : forall h r k a l (i : N), history cast h -> toplevel h r -> PathSpec.is_name k -> slot h r (Child k) a -> elems h a l ->
  goto_str (k ++ "("%char :: show_N i ++ [")"%char]) h r true =
    (h, match nth_error l (match i with N0 => length l - 1 | Npos p => N.to_nat i - 1 end) with Some e => Ok e | None => Err EIndex end).
Proof.
  intros h r k a l i H Tr Nk Sl El. destruct (history_inv cast h H) as ((T & _) & _).
  assert (Ps : parse (k ++ "("%char :: show_N i ++ [")"%char]) = Ok ([k], [INum (Z.of_N i - 1)])).
  { destruct i as [|p].
    - apply PathProofs3.parse_iff. apply PathSpec.parses_fortran with (pieces := [k; show_N 0; []]).
      + apply in_or_app. right. now left.
      + intros I. apply in_app_or in I as [I|I].
        * revert I. refine (PathProofs3.name_no k _ Nk _ _ _); [reflexivity|reflexivity|discriminate].
        * vm_compute in I. intuition discriminate.
      + change (k ++ "("%char :: show_N 0 ++ [")"%char]) with (k ++ "("%char :: show_N 0 ++ ")"%char :: []). apply PathSpec.splits_cons.
        * refine (PathProofs3.name_no k _ Nk _ _ _); [reflexivity|reflexivity|discriminate].
        * refine (PathProofs3.name_no k _ Nk _ _ _); [reflexivity|reflexivity|discriminate].
        * apply PathSpec.bal_chr; [discriminate|discriminate|constructor].
        * apply PathSpec.splits_last. auto.
      + apply (PathSpec.pp_index true k (show_N 0) [[]] [] k (INum (0 - 1)) [] []).
        * apply (PathSpec.names_plain [k]); [discriminate|constructor; auto].
        * apply (PathSpec.io_number true (show_N 0)); [discriminate|]. intros x [<-|[]]. reflexivity.
        * constructor.
    - pose proof (PathProofs3.print_parse true [(k, Some (Pos.pred_N p))] ltac:(discriminate) ltac:(repeat constructor; auto)) as X.
      cbn [PathSpec.print_steps PathSpec.print_step map fst snd PathSpec.step_index] in X. unfold PathSpec.print_step, PathSpec.step_index in X. cbn [fst snd] in X.
      replace (Pos.pred_N p + 1)%N with (N.pos p) in X by lia. rewrite X. repeat f_equal. lia. }
  unfold goto_str. rewrite Ps. rewrite (goto_index h T r k a _ Tr Sl). f_equal. destruct El as (ob & G & B). unfold aos_getitem. rewrite G, B.
  destruct (py_index (length l) (Z.of_N i - 1)) as [j|] eqn:Pi.
  - apply py_index_mod in Pi as (Hr & ->). cbn [snd].
    replace (Z.to_nat ((Z.of_N i - 1) mod Z.of_nat (length l))) with (match i with N0 => length l - 1 | Npos p => N.to_nat i - 1 end); auto.
    destruct i as [|p].
    + rewrite <- (Z_mod_plus_full _ 1), Z.mod_small by lia. lia.
    + rewrite Z.mod_small by lia. lia.
  - apply py_index_none in Pi. simpl. destruct (nth_error l _) as [e|] eqn:Ne; auto. elim Pi.
    assert (L : match i with 0%N => length l - 1 | N.pos p => N.to_nat i - 1 end < length l) by (apply nth_error_Some; congruence). destruct i; lia.
Qed.

(** ** C10 *)
(** A deep copy consists of new nodes and new arrays only, has the contents of the original (which has contents, whatever
    the history), and leaves everything else as it is. *)
Theorem C10_same_contents : forall h x f h1 y, history cast h -> x < length (h_objs h) ->
  exec cast h (OCopy f (HO x)) = (h1, Ok (Some (HO y))) ->
  (exists n, abs h x n) /\ (forall n, abs h x n -> abs h1 y n) /\
  (forall z, reach h1 y z -> length (h_objs h) <= z) /\ (forall b, reach_buf h1 y b -> length (h_bufs h) <= b) /\
  (forall z, z < length (h_objs h) -> get h1 z = get h z) /\ (forall b, b < length (h_bufs h) -> nth_error (h_bufs h1) b = nth_error (h_bufs h) b).
Proof.
  intros h x f h1 y H L E. destruct (history_inv cast h H) as ((T & N) & Sh). pose proof (history_good cast h H) as G. simpl in E.
  destruct (deepcopy f h empty_memo x) as [((h1', me), y')|] eqn:D; inversion E; subst h1' y'.
  destruct (copy_split false f h x h1 me y G L ltac:(discriminate) D) as (Ly & Lb & Old & (lb & Eb) & G1 & _).
  split; [|split; [|split; [|split; [|split]]]]; auto.
  - apply abs_exists; auto. intros z b B. apply (gd_buf _ _ _ _ G z b B).
  - assert (M : memo_in (length (h_objs h)) (length (h_bufs h)) h empty_memo) by (split; intros v (k & [])).
    assert (O : over h h) by (split; [auto|]; split; [auto|]; split; [auto|]; exists []; now rewrite app_nil_r).
    assert (C : closed h) by (intros c s z S; exact (t_exists _ T _ _ _ S)).
    assert (K : complete h h empty_memo) by (split; [intros k v X; discriminate X|intros b b' v X; discriminate X]).
    exact (proj2 (deepcopy_contents h C Sh f h empty_memo x h1 me y O C M K L D)).
  - intros z R. apply (protected_reach _ _ _ h1 y z G1) in R; lia.
  - intros b (p & ob & R & Gp & B). apply (protected_reach _ _ _ h1 y p G1) in R; [|lia].
    destruct (gd_buf _ _ _ _ G1 p b) as (_ & X); [rewrite (body_of_get _ _ _ Gp); now rewrite B|]. apply X in R. lia.
  - intros b Hb. rewrite Eb. now apply nth_error_app1.
Qed.

(** After copying an IDS, no program working on what existed before (the registers hold no node or array of the copy) changes
    the copy ... *)
Theorem C10_copy_unaffected : forall h x f h1 y regs prog h2 regs2, history cast h -> toplevel h x ->
  exec cast h (OCopy f (HO x)) = (h1, Ok (Some (HO y))) -> Forall (exists_in h) regs -> run cast h1 regs prog = (h2, regs2) ->
  (forall n, abs h1 y n <-> abs h2 y n) /\ (forall z, reach h1 y z -> get h2 z = get h1 z).
Proof.
  intros h x f h1 y regs prog h2 regs2 H Tx E A R. pose proof (history_good cast h H) as G. simpl in E.
  destruct (deepcopy f h empty_memo x) as [((h1', me), y')|] eqn:D; inversion E; subst h1' y'.
  assert (L : x < length (h_objs h)) by (destruct Tx as (ob & fs & Gx & _); eapply get_lt; eauto).
  assert (Px : true = true -> parent h x = None) by (intros _; destruct Tx as (ob & fs & Gx & Px & _); unfold parent; now rewrite Gx).
  destruct (copy_split true f h x h1 me y G L Px D) as (Ly & Lb & Old & _ & G1 & _).
  assert (F : frame true (fun z => length (h_objs h) <= z < length (h_objs h1)) (fun b => length (h_bufs h) <= b < length (h_bufs h1)) h1 h2).
  { eapply run_frame; [exact G1| | |exact R].
    - eapply Forall_impl; [|exact A]. intros [z|b] X; simpl in *; split; lia.
    - apply Forall_forall. intros o _. destruct o; simpl; auto. left. auto. }
  split.
  - intros n. apply (abs_protected _ _ _ _ _ _ _ G1 F). lia.
  - intros z Rz. apply (fr_P _ _ _ _ _ F). exact (protected_reach _ _ _ h1 y z G1 Ly Rz).
Qed.

(** ... and no program working on the copy changes anything that existed before. *)
Theorem C10_original_unaffected : forall h x f h1 y prog h2 regs2, history cast h -> toplevel h x ->
  exec cast h (OCopy f (HO x)) = (h1, Ok (Some (HO y))) -> run cast h1 [HO y] prog = (h2, regs2) ->
  (forall z n, z < length (h_objs h) -> (abs h z n <-> abs h2 z n)) /\ (forall z, z < length (h_objs h) -> get h2 z = get h z) /\
  (forall b, b < length (h_bufs h) -> nth_error (h_bufs h2) b = nth_error (h_bufs h) b).
Proof.
  intros h x f h1 y prog h2 regs2 H Tx E R. pose proof (history_good cast h H) as G. simpl in E.
  destruct (deepcopy f h empty_memo x) as [((h1', me), y')|] eqn:D; inversion E; subst h1' y'.
  assert (L : x < length (h_objs h)) by (destruct Tx as (ob & fs & Gx & _); eapply get_lt; eauto).
  assert (Px : true = true -> parent h x = None) by (intros _; destruct Tx as (ob & fs & Gx & Px & _); unfold parent; now rewrite Gx).
  destruct (copy_split true f h x h1 me y G L Px D) as (Ly & Lb & Old & (lb & Eb) & _ & G1).
  assert (F : frame true (fun z => z < length (h_objs h)) (fun b => b < length (h_bufs h)) h1 h2).
  { eapply run_frame; [exact G1| | |exact R].
    - constructor; [|constructor]. simpl. split; lia.
    - apply Forall_forall. intros o _. destruct o; simpl; auto. left. auto. }
  assert (Same : forall z, z < length (h_objs h) -> get h2 z = get h z) by (intros z Lz; rewrite (fr_P _ _ _ _ _ F); auto).
  assert (Sameb : forall b, b < length (h_bufs h) -> nth_error (h_bufs h2) b = nth_error (h_bufs h) b).
  { intros b Hb. rewrite (fr_Q _ _ _ _ _ F) by auto. rewrite Eb. now apply nth_error_app1. }
  split; [|auto]. intros z n Lz.
  assert (G0 : good true (fun z => z < length (h_objs h)) (fun b => b < length (h_bufs h)) h).
  { constructor; auto.
    - intros c s w S. pose proof (slot_lt _ _ _ _ S). destruct (gd_slot _ _ _ _ G _ _ _ S). tauto.
    - intros w b B. pose proof (body_lt _ _ _ B). destruct (gd_buf _ _ _ _ G _ _ B). tauto.
    - intros _ w p B. assert (w < length (h_objs h)) by (unfold parent in B; destruct (get h w) eqn:Gw; [eapply get_lt; eauto|discriminate]).
      destruct (gd_par _ _ _ _ G eq_refl _ _ B). tauto. }
  apply (abs_protected true (fun z => z < length (h_objs h)) (fun b => b < length (h_bufs h)) h h2 z n G0); auto.
  constructor; auto; [exact (fr_good _ _ _ _ _ F)| |].
  - pose proof (fr_len _ _ _ _ _ F). lia.
  - pose proof (fr_lenb _ _ _ _ _ F). lia.
Qed.

(** Copies of nodes inside an IDS keep the parent of the original.  For programs that do not use that pointer (no assignment by
    path; no path with an index that is itself a path) they are independent as well. *)
Theorem C10_node_copy_unaffected : forall h x f h1 y regs prog h2 regs2, history cast h -> x < length (h_objs h) ->
  exec cast h (OCopy f (HO x)) = (h1, Ok (Some (HO y))) -> Forall (exists_in h) regs -> Forall (nav_op false) prog -> run cast h1 regs prog = (h2, regs2) ->
  (forall n, abs h1 y n <-> abs h2 y n) /\ (forall z, reach h1 y z -> get h2 z = get h1 z).
Proof.
  intros h x f h1 y regs prog h2 regs2 H L E A N R. pose proof (history_good cast h H) as G. simpl in E.
  destruct (deepcopy f h empty_memo x) as [((h1', me), y')|] eqn:D; inversion E; subst h1' y'.
  destruct (copy_split false f h x h1 me y G L ltac:(discriminate) D) as (Ly & Lb & Old & _ & G1 & _).
  assert (F : frame false (fun z => length (h_objs h) <= z < length (h_objs h1)) (fun b => length (h_bufs h) <= b < length (h_bufs h1)) h1 h2).
  { eapply run_frame; [exact G1| |exact N|exact R]. eapply Forall_impl; [|exact A]. intros [z|b] X; simpl in *; split; lia. }
  split.
  - intros n. apply (abs_protected _ _ _ _ _ _ _ G1 F). lia.
  - intros z Rz. apply (fr_P _ _ _ _ _ F). exact (protected_reach _ _ _ h1 y z G1 Ly Rz).
Qed.
Theorem C10_node_original_unaffected : forall h x f h1 y prog h2 regs2, history cast h -> x < length (h_objs h) ->
  exec cast h (OCopy f (HO x)) = (h1, Ok (Some (HO y))) -> Forall (nav_op false) prog -> run cast h1 [HO y] prog = (h2, regs2) ->
  (forall z, z < length (h_objs h) -> get h2 z = get h z) /\ (forall b, b < length (h_bufs h) -> nth_error (h_bufs h2) b = nth_error (h_bufs h) b).
Proof.
  intros h x f h1 y prog h2 regs2 H L E N R. pose proof (history_good cast h H) as G. simpl in E.
  destruct (deepcopy f h empty_memo x) as [((h1', me), y')|] eqn:D; inversion E; subst h1' y'.
  destruct (copy_split false f h x h1 me y G L ltac:(discriminate) D) as (Ly & Lb & Old & (lb & Eb) & _ & G1).
  assert (F : frame false (fun z => z < length (h_objs h)) (fun b => b < length (h_bufs h)) h1 h2).
  { eapply run_frame; [exact G1| |exact N|exact R]. constructor; [|constructor]. simpl. split; lia. }
  split.
  - intros z Lz. rewrite (fr_P _ _ _ _ _ F); auto.
  - intros b Hb. rewrite (fr_Q _ _ _ _ _ F) by auto. rewrite Eb. now apply nth_error_app1.
Qed.
End WithCast.
Print Assumptions C07_resize.
Print Assumptions C07_negative_refused.
Print Assumptions C08_list_refinement.
Print Assumptions C08_length.
Print Assumptions C08_out_of_range.
Print Assumptions C09_parent_is_container.
Print Assumptions C05_own_path.
Print Assumptions C05_path_is_location.
Print Assumptions C05_distinct_paths.
Print Assumptions C03_fortran_index.
Print Assumptions C10_same_contents.
Print Assumptions C10_copy_unaffected.
Print Assumptions C10_original_unaffected.
Print Assumptions C10_node_copy_unaffected.
Print Assumptions C10_node_original_unaffected.

(** ** Examples: all hypotheses are met by a history with data, an array of structures and a second element *)
Fixpoint ok_ops (h : heap) (ops : list (op hnd)) : Prop :=
  match ops with [] => True | o :: t => op_ok h o /\ op_all (exists_in h) o /\ ok_ops (fst (exec ex_cast h o)) t end.
Lemma ok_history : forall ops h, history ex_cast h -> ok_ops h ops -> history ex_cast (fold_left (fun h o => fst (exec ex_cast h o)) ops h).
Proof. induction ops as [|o ops IH]; simpl; intros h H K; auto. apply IH; [|tauto]. constructor; tauto. Qed.
Definition ex_ops : list (op hnd) :=
  [ONewTop ex_meta; OGetAttr (HO 0) (strs "a"); OResize (HO 1) 2 false; OGetAttr (HO 2) (strs "x"); OAssign (HO 4) (RVal (VStr (strs "s")));
   OGetAttr (HO 2) (strs "v"); ONewArray (VFltA [2] [0; 1]%Z); OAssign (HO 5) (RRef (HB 0))].
Definition ex_h : heap := fold_left (fun h o => fst (exec ex_cast h o)) ex_ops empty_heap.
Lemma ex_history : history ex_cast ex_h.
Proof.
  apply ok_history; [constructor|]. cbn [ok_ops ex_ops op_ok op_all arg_all exists_in].
  repeat (split; [first [exact I|exact ex_meta_wf]|]; split; [first [exact I|split; [vm_compute; lia|first [exact I|vm_compute; lia]]|vm_compute; lia]|]). exact I.
Qed.
Ltac name_check := apply PathProofs3.valid_field_spec; vm_compute; reflexivity.
Lemma ex_names : names_ok ex_h.
Proof.
  intros x ob c G I. do 6 (destruct x as [|x]; [vm_compute in G; injection G as <-; simpl in I; repeat destruct I as [<-|I]; try destruct I; name_check|]).
  vm_compute in G. destruct x; discriminate.
Qed.
Lemma ex_top : toplevel ex_h 0.
Proof. eexists _, _. vm_compute. auto. Qed.
Lemma ex_slot_a : slot ex_h 0 (Child (strs "a")) 1.
Proof. eapply slot_field; [vm_compute; reflexivity|reflexivity|now left]. Qed.
Lemma ex_slot_e : slot ex_h 1 (Elem 0) 2.
Proof. eapply slot_elem; [vm_compute; reflexivity|reflexivity|reflexivity]. Qed.
Lemma ex_slot_x : slot ex_h 2 (Child (strs "x")) 4.
Proof. eapply slot_field; [vm_compute; reflexivity|reflexivity|now left]. Qed.
Lemma ex_reach : reach ex_h 0 4.
Proof.
  apply reach_step with 1; [eexists; exact ex_slot_a|]. apply reach_step with 2; [eexists; exact ex_slot_e|].
  apply reach_step with 4; [eexists; exact ex_slot_x|constructor].
Qed.

Example C05_example : history ex_cast ex_h /\ names_ok ex_h /\ toplevel ex_h 0 /\ reach ex_h 0 4 /\
  path_str 5 ex_h 4 = Some (strs "a[0]/x") /\ goto_str (strs "a[0]/x") ex_h 0 true = (ex_h, Ok 4).
Proof.
  split; [exact ex_history|]. split; [exact ex_names|]. split; [exact ex_top|]. split; [exact ex_reach|]. split; vm_compute; reflexivity.
Qed.
Example C03_example : history ex_cast ex_h /\ toplevel ex_h 0 /\ PathSpec.is_name (strs "a") /\ slot ex_h 0 (Child (strs "a")) 1 /\ elems ex_h 1 [2; 3].
Proof.
  split; [exact ex_history|]. split; [exact ex_top|]. split; [name_check|]. split; [exact ex_slot_a|]. eexists. split; vm_compute; reflexivity.
Qed.
(** The element denoted by a(0) is the last one: the property C03 does not hold. *)
Theorem C03_zero_index_refuted : exists h r a e, toplevel h r /\ slot h r (Child (strs "a")) a /\ elems h a [2; e] /\
  goto_str (strs "a(0)") h r true = (h, Ok e).
Proof.
  exists ex_h, 0, 1, 3. split; [exact ex_top|]. split; [exact ex_slot_a|]. split; [eexists; split; vm_compute; reflexivity|]. vm_compute. reflexivity.
Qed.
Print Assumptions C03_zero_index_refuted.

Example C07_example : exists ob, get ex_h 1 = Some ob /\ o_body ob = BAoS [2; 3] /\
  (exists h', resize ex_h 1 3 true = (h', Ok tt) /\ elems h' 1 [2; 3; 6]) /\ (exists h', resize ex_h 1 1 true = (h', Ok tt) /\ elems h' 1 [2]) /\
  (exists h', resize ex_h 1 2 false = (h', Ok tt) /\ elems h' 1 [6; 7]).
Proof.
  eexists. split; [vm_compute; reflexivity|]. split; [reflexivity|].
  split; [|split]; (eexists; split; [vm_compute; reflexivity|eexists; split; vm_compute; reflexivity]).
Qed.
Example C08_example : elems ex_h 1 [2; 3] /\
  let ops := [OGetItem (HO 1) (-2); OCopy 5 (HO 3); OAppend (HO 1) [HO 6]; OSetItem (HO 1) (-1) (HO 2); OResize (HO 1) 1 true; OGetItem (HO 1) 1] in
  map (fun k => snd (exec ex_cast (fold_left (fun h o => fst (exec ex_cast h o)) (firstn k ops) ex_h) (nth k ops (ORead (HO 0))))) [0; 1; 2; 3; 4; 5] =
    [Ok (Some (HO 2)); Ok (Some (HO 6)); Ok None; Ok None; Ok None; Err EIndex] /\
  elems (fold_left (fun h o => fst (exec ex_cast h o)) ops ex_h) 1 [2].
Proof.
  split; [eexists; split; vm_compute; reflexivity|]. split; [vm_compute; reflexivity|]. eexists; split; vm_compute; reflexivity.
Qed.
Example C09_example : history ex_cast ex_h /\ slot ex_h 2 (Child (strs "x")) 4 /\ parent ex_h 4 = Some 2.
Proof. split; [exact ex_history|]. split; [exact ex_slot_x|]. reflexivity. Qed.
Example C10_example : exists h1, exec ex_cast ex_h (OCopy 5 (HO 0)) = (h1, Ok (Some (HO 6))) /\ h_bufs h1 = h_bufs ex_h ++ h_bufs ex_h.
Proof. eexists. split; vm_compute; reflexivity. Qed.

(** Only nodes that are in exactly one container are considered, but the operations are not restricted. *)
Ltac one_of I := repeat destruct I as [I|I]; try contradiction; try reflexivity; try discriminate I; try (injection I; intros; discriminate).
Ltac only_container := intros c'; split; [intros (s & S); apply slot_iff in S as (b & B & I);
    do 8 (destruct c' as [|c']; [vm_compute in B; try discriminate B; injection B as <-; destruct s as [k|i]; simpl in I; try contradiction; try (apply nth_error_In in I; simpl in I); one_of I|]);
    vm_compute in B; destruct c'; discriminate B|intros ->].
(** [a1[0] = e] for an e of another array that is then shrunk *)
Theorem C09_setitem_refuted : exists prog h regs c x, run ex_cast empty_heap [] prog = (h, regs) /\
  (forall c', contained h c' x <-> c' = c) /\ parent h x <> Some c.
Proof.
  exists [ONewTop ex_meta; ONewTop ex_meta; OGetAttr 0 (strs "a"); OGetAttr 1 (strs "a"); OResize 2 1 true; OResize 3 1 true; OGetItem 3 0;
          OSetItem 2 0 4; OResize 3 0 true].
  eexists _, _, 2, 5. split; [vm_compute; reflexivity|]. split; [|vm_compute; discriminate]. only_container.
  exists (Elem 0). eapply slot_elem; [vm_compute; reflexivity|reflexivity|reflexivity].
Qed.
Print Assumptions C09_setitem_refuted.
(** appending an element of another array, then shrinking the first *)
Theorem C09_append_refuted : exists prog h regs c x, run ex_cast empty_heap [] prog = (h, regs) /\
  (forall o, In o prog -> match o with OSetItem _ _ _ | OSetAttr _ _ _ | OSetPath _ _ _ => False | _ => True end) /\
  (forall c', contained h c' x <-> c' = c) /\ parent h x <> Some c.
Proof.
  exists [ONewTop ex_meta; ONewTop ex_meta; OGetAttr 0 (strs "a"); OGetAttr 1 (strs "a"); OResize 3 1 true; OGetItem 3 0; OAppend 2 [4]; OResize 2 0 true].
  eexists _, _, 3, 4. split; [vm_compute; reflexivity|]. split; [|split; [|vm_compute; discriminate]].
  - intros o I. simpl in I. repeat destruct I as [<-|I]; try destruct I; exact I.
  - only_container. exists (Elem 0). eapply slot_elem; [vm_compute; reflexivity|reflexivity|reflexivity].
Qed.
Print Assumptions C09_append_refuted.

(** Copies of nodes inside an IDS refer to the original IDS: a path with an index path, evaluated on the copy, adds nodes to
    the original. *)
Theorem C10_node_copy_refuted : exists h x h1 y prog h2 regs, history ex_cast h /\ x < length (h_objs h) /\
  exec ex_cast h (OCopy 5 (HO x)) = (h1, Ok (Some (HO y))) /\ run ex_cast h1 [HO y] prog = (h2, regs) /\ get h2 0 <> get h 0 /\ 0 < length (h_objs h).
Proof.
  exists (fold_left (fun h o => fst (exec ex_cast h o)) [ONewTop ex_meta; OGetAttr (HO 0) (strs "sub")] empty_heap), 1.
  eexists _, 2, [OGetPath 0 (strs "b(o/n)/w")], _, _. split; [|split; [vm_compute; lia|split; [vm_compute; reflexivity|split; [vm_compute; reflexivity|split; [vm_compute; discriminate|vm_compute; lia]]]]].
  apply ok_history; [constructor|]. split; [exact ex_meta_wf|]. split; [exact I|]. split; [exact I|]. split; [vm_compute; lia|exact I].
Qed.
Print Assumptions C10_node_copy_refuted.
