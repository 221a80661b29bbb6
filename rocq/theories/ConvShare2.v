(** C27, continued: modifications of the two IDSs after the conversion, and what an assignment shares. *)
From Verif Require Import Base PathModel TreeModel TreeSpec TreeCheck ValModel PrimModel ConvModel ConvProofs ConvProofs2 ConvShare.
From Verif Require ConvProps.
From Verif Require VmapModel.
Import VmapModel(handler(..), nmap).

(** ** Histories: in-place modifications of arrays, and assignments, in either IDS after the conversion *)
(** the values of the data nodes of the source and of the converted IDS *)
Record both := { b_src : loc -> option value; b_tgt : loc -> option value }.
(** a modification: of the source (true) or of the converted IDS, the data node, and the new contents *)
Record mod_ := { o_src : bool; o_at : loc; o_value : value }.
Section History.
(** pairs (data node of the target, data node of the source) whose arrays overlap in memory *)
Variable sh : list (loc * loc).
(** what a node shows after an overlapping array was modified *)
Variable overlap : loc -> loc -> value -> option value -> option value.
Definition overlaps (t l : loc) : bool := existsb (fun x => loc_eqb (fst x) t && loc_eqb (snd x) l) sh.
Definition put_at (f : loc -> option value) (l : loc) (v : value) : loc -> option value := fun q => if loc_eqb q l then Some v else f q.
Definition modify (s : both) (o : mod_) : both :=
  if o_src o then {| b_src := put_at (b_src s) (o_at o) (o_value o);
                     b_tgt := fun t => if overlaps t (o_at o) then overlap t (o_at o) (o_value o) (b_tgt s t) else b_tgt s t |}
  else {| b_src := fun l => if overlaps (o_at o) l then overlap l (o_at o) (o_value o) (b_src s l) else b_src s l;
          b_tgt := put_at (b_tgt s) (o_at o) (o_value o) |}.
Definition after (s : both) (l : list mod_) : both := fold_left modify l s.
End History.

Lemma nothing_shared : forall overlap l a b, (forall q, b_tgt a q = b_tgt b q) ->
  forall q, b_tgt (after [] overlap a l) q = b_tgt (after [] overlap b (filter (fun o => negb (o_src o)) l)) q.
Proof.
  intros overlap. induction l as [|o l IH]; intros a b E q; [apply E|]. cbn [filter]. destruct (o_src o) eqn:S; cbn [negb].
  - apply (IH (modify [] overlap a o) b). intros t. unfold modify. rewrite S. cbn [b_tgt overlaps existsb]. apply E.
  - apply (IH (modify [] overlap a o) (modify [] overlap b o)). intros t. unfold modify. rewrite S. cbn [b_tgt]. unfold put_at. destruct (loc_eqb t (o_at o)); auto.
Qed.
Lemma nothing_shared_src : forall overlap l a b, (forall q, b_src a q = b_src b q) ->
  forall q, b_src (after [] overlap a l) q = b_src (after [] overlap b (filter o_src l)) q.
Proof.
  intros overlap. induction l as [|o l IH]; intros a b E q; [apply E|]. cbn [filter]. destruct (o_src o) eqn:S.
  - apply (IH (modify [] overlap a o) (modify [] overlap b o)). intros t. unfold modify. rewrite S. cbn [b_src]. unfold put_at. destruct (loc_eqb t (o_at o)); auto.
  - apply (IH (modify [] overlap a o) b). intros t. unfold modify. rewrite S. cbn [b_src overlaps existsb]. apply E.
Qed.

Section Later.
Variables (sm tm : meta).
Variable src : node.
Variable rm : nmap.
Variable str_of : pyval -> str.
Variable parse_float : str -> option flt.
Variable parse_cpx : str -> option (flt * flt).
Variable flt_of_int : Z -> option flt.
Variable np_cast : dtype -> pyval -> result pexn value.
Variable array_items : value -> list pyval.
Variable close : pyval -> pyval -> bool.
Variable np_int32 : flt -> result pexn Z.
Variable enum_of : list str -> option (Z -> option (str * str)).
Notation assign := (assign tm str_of parse_float parse_cpx flt_of_int np_cast array_items).
Notation copy_toplevel d := (copy_toplevel sm tm src rm d str_of parse_float parse_cpx flt_of_int np_cast array_items close np_int32 enum_of).

(** After a conversion with deepcopy=True (and a map without the four handlers), modifications of one IDS do not show in the other one:
    with any sequence of modifications of both, each shows what it shows without those of the other. *)
Theorem C27_later_modifications : (forall p h, alookup p (VmapModel.m_type rm) = Some (Some h) -> ~ gives_views h) -> forall tgt0 st r overlap l,
  copy_toplevel true {| c_tree := tgt0; c_shared := [] |} = (st, r) ->
  let s := {| b_src := fval sm src; b_tgt := fval tm (c_tree st) |} in
  (forall q, b_tgt (after (c_shared st) overlap s l) q = b_tgt (after (c_shared st) overlap s (filter (fun o => negb (o_src o)) l)) q) /\
  (forall q, b_src (after (c_shared st) overlap s l) q = b_src (after (c_shared st) overlap s (filter o_src l)) q).
Proof.
  intros NV tgt0 st r overlap l R s. pose proof (C27_deepcopy sm tm src rm str_of parse_float parse_cpx flt_of_int np_cast array_items close np_int32 enum_of NV tgt0) as D. rewrite R in D. cbn [fst] in D. rewrite D.
  split; [apply nothing_shared|apply nothing_shared_src]; auto.
Qed.

(** What an assignment does to the overlaps: the node overlaps with the array that was assigned, if it was one of the source and of the
    type of the node, and with nothing else; the other nodes overlap as before. *)
Lemma loc_eqb_spec : forall a b, loc_eqb a b = true <-> a = b.
Proof.
  unfold loc_eqb. induction a as [|x a IH]; destruct b as [|y b]; cbn [list_eqb]; try (split; discriminate || congruence). rewrite Bool.andb_true_iff, IH.
  assert (E : (match x, y with Child s, Child t => str_eqb s t | Elem i, Elem j => i =? j | _, _ => false end) = true <-> x = y).
  { destruct x, y; try (split; discriminate); [rewrite str_eqb_eq|rewrite Nat.eqb_eq]; split; congruence. }
  rewrite E. split; [intros (-> & ->); auto|intros [= -> ->]; auto].
Qed.
Lemma unshare_In : forall l sh x, In x (unshare l sh) <-> In x sh /\ fst x <> l.
Proof.
  intros l sh x. unfold unshare. rewrite filter_In. rewrite Bool.negb_true_iff. split; intros (A & B); split; auto.
  - intros E. apply loc_eqb_spec in E. congruence.
  - destruct (loc_eqb (fst x) l) eqn:E; auto. apply loc_eqb_spec in E. contradiction.
Qed.
Theorem C27_assign : forall l from p st st' nm dt nd cs old, look tm (c_tree st) l = Some (Meta nm (KLeaf dt nd) cs, old) -> assign l from p st = (st', Ok tt) ->
  forall t q, In (t, q) (c_shared st') <->
    (t <> l /\ In (t, q) (c_shared st)) \/ (t = l /\ from = Some q /\ exists sh, (dt = INT /\ exists d, p = PArr (VIntA sh d)) \/ (dt = FLT /\ exists d, p = PArr (VFltA sh d)) \/ (dt = CPX /\ exists d, p = PArr (VCpxA sh d))).
Proof.
  intros l from p st st' nm dt nd cs old L A t q. unfold ConvModel.assign in A. rewrite L in A. destruct old as [?|?|old]; try discriminate. destruct (set_value _ _ _ _ _ _ _ _ _ _ _) as [v [u|e]]; [|discriminate]. injection A as <-. cbn [c_shared].
  assert (SD : same_dtype dt p = true <-> exists sh, (dt = INT /\ exists d, p = PArr (VIntA sh d)) \/ (dt = FLT /\ exists d, p = PArr (VFltA sh d)) \/ (dt = CPX /\ exists d, p = PArr (VCpxA sh d))).
  { split.
    - destruct dt; destruct p as [x1|x2|x3|x4|x5|x6 x7| |x8|w|w|x9 x10 w]; try discriminate; destruct w; try discriminate; intros _; eauto 8.
    - intros (s & [(-> & d & ->)|[(-> & d & ->)|(-> & d & ->)]]); reflexivity. }
  destruct from as [sl|].
  - destruct (same_dtype dt p) eqn:S.
    + cbn [In]. rewrite unshare_In. cbn [fst]. split.
      * intros [[= -> ->]|(I & N)]; [right; split; auto; split; auto; apply SD; auto|left; auto].
      * intros [(N & I)|(-> & [= ->] & _)]; auto.
    + rewrite unshare_In. cbn [fst]. split; [intros (I & N); left; auto|]. intros [(N & I)|(_ & _ & X)]; auto. apply SD in X. discriminate.
  - rewrite unshare_In. cbn [fst]. split; [intros (I & N); left; auto|]. intros [(N & I)|(_ & X & _)]; auto. discriminate.
Qed.
End Later.
Print Assumptions C27_later_modifications.
Print Assumptions C27_assign.

(** With one of the four handlers this is false: a modification of the source shows in the converted IDS. *)
Theorem C27_later_modifications_refuted : exists sm tm src rm st r overlap o q,
  copy_toplevel sm tm src rm true (fun _ => []) (fun _ => None) (fun _ => None) Some ConvProps.ex_cast (fun _ => []) (fun _ _ => true) (fun f => Ok f) (fun _ => None) {| c_tree := NStruct []; c_shared := [] |} = (st, r) /\
  wf_meta sm /\ wf_meta tm /\ conf sm src /\ o_src o = true /\
  let s := {| b_src := fval sm src; b_tgt := fval tm (c_tree st) |} in
  b_tgt (after (c_shared st) overlap s [o]) q <> b_tgt s q.
Proof.
  exists share_old, share_new, share_src, (VmapModel.set_type (strs "contour") (Some H_repeat_first_cond) VmapModel.empty_map). eexists. eexists. exists (fun _ _ v _ => Some v).
  exists {| o_src := true; o_at := [Child (strs "contour"); Child (strs "r")]; o_value := VFltA [2] [3%Z; 2%Z] |}, [Child (strs "contour"); Child (strs "r")].
  split; [vm_compute; reflexivity|]. split; [by_check|]. split; [by_check|]. split; [by_check|]. split; [reflexivity|]. vm_compute. discriminate.
Qed.
Print Assumptions C27_later_modifications_refuted.
Example C27_assign_example : let old := {| c_tree := NStruct [(strs "r", NLeaf None)]; c_shared := [([Child (strs "z")], [Child (strs "y")])] |} in
  let m := Meta (strs "ids") KStruct [ConvProps.lf "r" FLT 1; ConvProps.lf "z" FLT 1] in
  c_shared (fst (assign m (fun _ => []) (fun _ => None) (fun _ => None) Some ConvProps.ex_cast (fun _ => []) [Child (strs "r")] (Some [Child (strs "q")]) (PArr (VFltA [1] [5%Z])) old)) =
  [([Child (strs "r")], [Child (strs "q")]); ([Child (strs "z")], [Child (strs "y")])].
Proof. vm_compute. reflexivity. Qed.
