(** C27: which arrays of the converted IDS share memory with arrays of the source. *)
From Verif Require Import Base PathModel TreeModel TreeSpec TreeCheck ValModel PrimModel ConvModel ConvProofs2.
From Verif Require ConvProps.
From Verif Require VmapModel.
Import VmapModel(handler(..), nmap).

(** handlers that assign an array of the source, or a view on one, without looking at [deepcopy] *)
Definition gives_views (h : handler) : Prop := In h [H_remove_last_cond; H_repeat_first_cond; H_remove_last_centre; H_repeat_last_centre].

Definition keeps {A} (c : CM A) : Prop := forall s, c_shared s = [] -> c_shared (fst (c s)) = [].
Lemma keeps_ret : forall A (a : A), keeps (cret a). Proof. intros A a s H. exact H. Qed.
Lemma keeps_fail : forall A e, keeps (cfail (A := A) e). Proof. intros A a s H. exact H. Qed.
Lemma keeps_bind : forall A B (c : CM A) (f : A -> CM B), keeps c -> (forall a, keeps (f a)) -> keeps (cbind c f).
Proof. intros A B c f HC HF s H. unfold cbind. specialize (HC s H). destruct (c s) as [s1 [a|e]]; simpl in *; auto. apply HF; auto. Qed.
Lemma keeps_iter : forall A (f : A -> CM unit) l, (forall a, In a l -> keeps (f a)) -> keeps (citer f l).
Proof.
  induction l as [|x l IH]; intros H; simpl; [apply keeps_ret|]. apply keeps_bind; [apply H; left; auto|]. intros _. apply IH. intros a I. apply H. right; auto.
Qed.
Lemma keeps_lift : forall A (c : M lexn A), keeps (lift c).
Proof. intros A c s H. unfold lift. destruct (c (c_tree s)) as [n' [a|e]]; exact H. Qed.
Lemma keeps_option : forall A e (o : option A), keeps (of_option e o). Proof. intros A e [a|]; [apply keeps_ret|apply keeps_fail]. Qed.

Section Share.
Variables (sm tm : meta).
Variable src : node.
Variable rm : nmap.
Variable str_of : pyval -> str.
Variable parse_float : str -> option flt.
Variable parse_cpx : str -> option (flt * flt).
Variable flt_of_int : Z -> option flt.
Variable np_cast : dtype -> pyval -> result pexn value.
Variable array_items : value -> list pyval.
Variable close : pyval -> pyval -> bool.
Variable np_int32 : flt -> result pexn Z.
Variable enum_of : list str -> option (Z -> option (str * str)).
Notation assign := (assign tm str_of parse_float parse_cpx flt_of_int np_cast array_items).
Notation type_change := (type_change sm tm src str_of parse_float parse_cpx flt_of_int np_cast array_items close np_int32 enum_of).
Notation post_process := (post_process tm str_of parse_float parse_cpx flt_of_int np_cast array_items).
Notation copy_item d := (copy_item sm tm src rm d str_of parse_float parse_cpx flt_of_int np_cast array_items close np_int32 enum_of).
Notation copy_toplevel d := (copy_toplevel sm tm src rm d str_of parse_float parse_cpx flt_of_int np_cast array_items close np_int32 enum_of).

Lemma keeps_assign : forall l p, keeps (assign l None p).
Proof.
  intros l p s H. unfold ConvModel.assign. destruct (look tm (c_tree s) l) as [[[nm [| |dt nd] cs] [fs|els|old]]|]; auto.
  destruct (set_value _ _ _ _ _ _ _ _ _ _ _) as [v [u|e]]; simpl; auto. rewrite H. reflexivity.
Qed.
Lemma keeps_reassign : forall k l f, keeps (reassign tm str_of parse_float parse_cpx flt_of_int np_cast array_items k l f).
Proof.
  intros k l f. unfold reassign. apply keeps_bind.
  - unfold target_value. apply keeps_bind; [apply keeps_lift|]. intros [| |]; [apply keeps_fail|apply keeps_fail|apply keeps_lift].
  - intros v. apply keeps_bind; [apply keeps_option|]. intros w s H. rewrite H. replace (if k then _ else _) with (@None loc) by (destruct k; reflexivity).
    apply keeps_assign. exact H.
Qed.
Lemma keeps_resize : forall l k, keeps (resize tm l k).
Proof. intros l k s H. unfold resize. destruct (look tm (c_tree s) l) as [[[nm [| |dt nd] cs] [fs|els|old]]|]; auto. Qed.
Lemma keeps_getattr : forall l n, keeps (getattr tm l n).
Proof.
  intros l n. unfold getattr. apply keeps_bind; [apply keeps_lift|]. intros [cs| |]; try apply keeps_fail. destruct (child_meta n cs); [|apply keeps_fail].
  apply keeps_bind; [apply keeps_lift|]. intros. apply keeps_ret.
Qed.
Lemma keeps_filled : forall l, keeps (filled_children tm l).
Proof. intros l s H. unfold filled_children. destruct (look tm (c_tree s) l) as [[[nm k cs] [fs|els|v]]|]; exact H. Qed.
Local Opaque citer keeps.
Hint Resolve keeps_ret keeps_fail keeps_lift keeps_option keeps_assign keeps_reassign keeps_resize keeps_getattr : share.
Ltac go := repeat first [solve [auto with share] | apply keeps_bind; [auto with share|intros ?]
                        | match goal with |- keeps (match ?x with _ => _ end) => destruct x end].
Lemma keeps_identifier : forall tl e i z, keeps (identifier tm str_of parse_float parse_cpx flt_of_int np_cast array_items tl e i z).
Proof. intros. unfold identifier. go. Qed.
Lemma keeps_type : forall h m n sl tl, ~ gives_views h -> keeps (type_change h m n sl tl).
Proof.
  intros h m n sl tl NV. unfold gives_views in NV. destruct h; simpl in NV; simpl; try (exfalso; tauto); try apply keeps_fail.
  - unfold type_structure_aos, handled. unfold cview. go.
  - unfold type_0d_1d, handled. go.
  - unfold type_to_identifier, handled. destruct m as [nm [| |[| | |] [|[|nd]]] cs], n as [fs|[|e els]|v]; go; apply keeps_iter; intros ? ?; apply keeps_identifier.
  - unfold type_flt_int, handled. go.
  - unfold type_ids_source, handled, cview. go.
Qed.
Lemma keeps_post : forall h tl, keeps (post_process h tl).
Proof.
  assert (EC : forall l f, (forall c, keeps (f c)) -> keeps (each_child tm l f)).
  { intros l f Hf. unfold each_child. apply keeps_bind.
    - apply keeps_filled.
    - intros ns. apply keeps_iter. auto. }
  intros h tl. destruct h; simpl; unfold cview, target_value, cview; try (apply EC; intros); go.
Qed.
Lemma keeps_target_item : forall p nm tl, keeps (target_item tm rm p nm tl).
Proof. intros. unfold target_item, cview. go. Qed.

Hypothesis no_views : forall p h, alookup p (VmapModel.m_type rm) = Some (Some h) -> ~ gives_views h.
Lemma keeps_copy_item : forall c n sl tl, keeps (copy_item true c n sl tl).
Proof.
  induction c as [name k cs IH] using ValProofs.meta_ind'. intros n sl tl. rewrite copy_item_eq. apply keeps_bind; [apply keeps_target_item|].
  intros [t|]; [|apply keeps_ret]. unfold copy_rest.
  assert (KIDS : forall fs sl tl, keeps (copy_children sm tm src rm true str_of parse_float parse_cpx flt_of_int np_cast array_items close np_int32 enum_of cs fs sl tl)).
  { intros fs sl' tl'. unfold copy_children. apply keeps_iter. intros d I. destruct (alookup (mname d) fs); [|apply keeps_ret]. destruct (has_value d n0); [|apply keeps_ret]. auto. }
  apply keeps_bind.
  - destruct (alookup (path_string sl) (VmapModel.m_type rm)) as [[h|]|] eqn:A; auto with share. apply keeps_type. eapply no_views; eauto.
  - intros [[[n2 sl2] tl2]|]; [|apply keeps_ret]. apply keeps_bind.
    + destruct n2 as [fs|els|v]; auto with share. apply keeps_bind; auto with share. intros _. apply keeps_iter. intros x _. apply KIDS.
    + intros _. destruct (alookup (path_string sl) (VmapModel.m_post rm)); [apply keeps_post|apply keeps_ret].
Qed.

(** With deepcopy=True and a rename map without these handlers, no array is shared (also if the conversion fails). *)
Local Transparent keeps.
Theorem C27_deepcopy : forall tgt0, c_shared (fst (copy_toplevel true {| c_tree := tgt0; c_shared := [] |})) = [].
Proof.
  intros tgt0. assert (K : keeps (copy_toplevel true)); [|apply K; reflexivity]. unfold ConvModel.copy_toplevel. apply keeps_iter. intros d _.
  destruct (alookup (mname d) (node_fields src)); [|apply keeps_ret]. destruct (has_value d n); [apply keeps_copy_item|apply keeps_ret].
Qed.
End Share.
Print Assumptions C27_deepcopy.
Example C27_example : forall p h, alookup p (VmapModel.m_type ConvProps.ex_map) = Some (Some h) -> ~ gives_views h.
Proof.
  intros p h. cbn. destruct (str_eqb p _); [|discriminate]. intros [= <-] H. repeat (destruct H as [H|H]; [discriminate|]). exact H.
Qed.

(** Finding: deepcopy=True does not reach the special rules for contours and centrelines.  Here an open contour is converted; its
    coordinates are the arrays of the source. *)
Definition share_old : meta := Meta (strs "ids") KStruct [Meta (strs "contour") KStruct [ConvProps.lf "closed" INT 0; ConvProps.lf "r" FLT 1]].
Definition share_new : meta := Meta (strs "ids") KStruct [Meta (strs "contour") KStruct [ConvProps.lf "r" FLT 1]].
Definition share_src : node := NStruct [(strs "contour", NStruct [(strs "closed", NLeaf (Some (VInt 0))); (strs "r", NLeaf (Some (VFltA [2] [1%Z; 2%Z])))])].
Theorem C27_deepcopy_refuted : exists sm tm src rm, wf_meta sm /\ wf_meta tm /\ conf sm src /\
  let (st, r) := copy_toplevel sm tm src rm true (fun _ => []) (fun _ => None) (fun _ => None) Some ConvProps.ex_cast (fun _ => []) (fun _ _ => true) (fun f => Ok f)
                   (fun _ => None) {| c_tree := NStruct []; c_shared := [] |} in
  r = Ok tt /\ c_shared st = [([Child (strs "contour"); Child (strs "r")], [Child (strs "contour"); Child (strs "r")])].
Proof.
  exists share_old, share_new, share_src, (VmapModel.set_type (strs "contour") (Some H_repeat_first_cond) VmapModel.empty_map).
  split; [by_check|]. split; [by_check|]. split; [by_check|]. vm_compute. auto.
Qed.
Print Assumptions C27_deepcopy_refuted.
