(** C25: cases that meet the hypotheses of ConvProps5.v and ConvProps6.v, and values that do not survive the way there and back. *)
From Verif Require Import Base PathModel TreeModel TreeSpec TreeProofs TreeProofs2 TreeProofs3 TreeProofs4 TreeCheck ValModel ValProofs ValProofs2 PrimModel PrimSpec PrimProps ConvModel ConvSpec ConvInverse
  ConvProofs ConvProofs2 ConvProofs3 ConvProofs4 ConvProofs5 ConvProps ConvProps2 ConvProps3 ConvProps4 ConvExamples ConvProps5 ConvProps6.
From Verif Require VmapModel.
Import VmapModel(handler(..), nmap).

Print Assumptions C25_centreline.
Print Assumptions C25_centreline_older.
Print Assumptions C25_identifiers.
Print Assumptions C25_identifiers_older.
Print Assumptions C25_contours.

Lemma look_new : forall l m m' n', look m (new_node m) l = Some (m', n') -> n' = new_node m'.
Proof.
  induction l as [|[s|i] l IH]; intros m m' n' H; cbn [look] in H; [congruence| |]; destruct m as [nm [| |dt nd] cs]; cbn [mkind new_node mchildren] in H; try discriminate.
  - destruct (child_meta s cs) as [c|]; [|discriminate]. apply IH in H. exact H.
  - destruct i; discriminate.
Qed.
Lemma nothing_new : forall m, mkind m = KStruct -> forall tl, nothing m (NStruct []) tl.
Proof.
  intros [nm k cs] K tl q. cbn in K. subst k. change (NStruct []) with (new_node (Meta nm KStruct cs)). split.
  - unfold fval. destruct (look _ _ (tl ++ q)) as [[m' n']|] eqn:L; auto. apply look_new in L. subst. destruct m' as [? [| |dt nd] ?]; cbn; auto.
  - intros j. unfold fsize. destruct (look _ _ (tl ++ q)) as [[m' n']|] eqn:L; [|discriminate]. apply look_new in L. subst. destruct m' as [? [| |dt nd] ?]; cbn; discriminate.
Qed.

(** ** Thickness of a centreline *)
Definition ex_ann (version3 : bool) : meta :=
  Meta (strs "ids") KStruct [Meta (strs "annular") KStruct [Meta (strs "centreline") KStruct ([lf "r" FLT 1] ++ if version3 then [lf "closed" INT 0] else []); lf "thickness" FLT 1]].
Definition th : loc := [Child (strs "annular"); Child (strs "thickness")].
Definition ex_open : node := NStruct [(strs "annular", NStruct [(strs "centreline", NStruct [(strs "closed", leaf (VInt 0))])])].
Definition two (a b : Z) : value := VFltA [2] [ex_float a; ex_float b].
Example C25_centreline_hypotheses : wf_meta (ex_ann true) /\ wf_meta (ex_ann false) /\ casts_arrays ex_asarray /\ vector FLT 1 (two 1 2) /\ place (ex_ann true) ex_open th FLT 1 /\ centre_flag (ex_ann true) ex_open th 0 /\
  place (ex_ann false) (NStruct []) th FLT 1.
Proof.
  assert (A : wf_meta (ex_ann true)) by by_check. assert (B : wf_meta (ex_ann false)) by by_check. split; auto. split; auto. split; [apply ex_asarray_arrays|].
  split; [split; [apply (vo_flta [2]); [discriminate|reflexivity]|split; [discriminate|cbn; lia]]|].
  split; [exists (strs "thickness"), [], None; apply look_vnode; [auto|vm_compute; reflexivity]|].
  split; [apply shown_info; [auto|]; exists 0; vm_compute; reflexivity|].
  exists (strs "thickness"), [], None; apply look_vnode; [auto|vm_compute; reflexivity].
Qed.
Example C25_centreline_example : let st1 := fst (ex_rule (ex_ann false) (ex_ann true) (NStruct []) H_repeat_last_centre (lf "thickness" FLT 1) (leaf (two 1 2)) th th (ex_st ex_open)) in
  fval (ex_ann true) (c_tree st1) th = Some (VFltA [3] (map ex_float [1; 2; 2]%Z)) /\
  fval (ex_ann false) (c_tree (fst (ex_rule (ex_ann true) (ex_ann false) (c_tree st1) H_remove_last_centre (lf "thickness" FLT 1) (leaf (VFltA [3] (map ex_float [1; 2; 2]%Z))) th th (ex_st (NStruct []))))) th = Some (two 1 2).
Proof. cbv zeta. split; vm_compute; reflexivity. Qed.
(** The last of the values along an open centreline is lost on the way to the newer version, unless it repeats the one before. *)
Theorem C25_centreline_refuted : exists v st1 w st2 v', centre_flag (ex_ann true) ex_open th 0 /\ vector FLT 2 v /\
  ex_rule (ex_ann true) (ex_ann false) ex_open H_remove_last_centre (lf "thickness" FLT 1) (leaf v) th th (ex_st (NStruct [])) = (st1, Ok None) /\ fval (ex_ann false) (c_tree st1) th = Some w /\
  ex_rule (ex_ann false) (ex_ann true) (c_tree st1) H_repeat_last_centre (lf "thickness" FLT 1) (leaf w) th th (ex_st ex_open) = (st2, Ok None) /\ fval (ex_ann true) (c_tree st2) th = Some v' /\ v' <> v.
Proof.
  exists (VFltA [3] (map ex_float [1; 2; 3]%Z)). eexists. exists (two 1 2). eexists. exists (VFltA [3] (map ex_float [1; 2; 2]%Z)).
  split; [apply C25_centreline_hypotheses|]. split; [split; [apply (vo_flta [3]); [discriminate|reflexivity]|split; [discriminate|cbn; lia]]|].
  split; [vm_compute; reflexivity|]. split; [vm_compute; reflexivity|]. split; [vm_compute; reflexivity|]. split; [vm_compute; reflexivity|vm_compute; discriminate].
Qed.
Print Assumptions C25_centreline_refuted.

(** ** Identifiers *)
Definition ex_ids : list meta := [lf "name" STR 0; lf "index" INT 0; lf "description" STR 0].
Definition ex_id4 : meta := Meta (strs "ids") KStruct [Meta (strs "v") KAoS ex_ids].
Definition ex_enum (p : list str) : option (Z -> option (str * str)) := Some (fun z => if (z =? 2)%Z then Some (strs "two", strs "the number two") else None).
Example C25_identifiers_hypotheses : wf_meta (ex_v1 INT) /\ wf_meta ex_id4 /\ str_ok ex_id4 /\ conf ex_id4 (NStruct []) /\ vnode_at ex_id4 (NStruct []) (at_ "v") (Meta (strs "v") KAoS ex_ids) (NAoS []) /\ identifier_children ex_ids /\
  place (ex_v1 INT) (NStruct []) (at_ "v") INT 1 /\ meaning ex_enum (loc_names (at_ "v")) 2 <> None.
Proof.
  assert (A : wf_meta (ex_v1 INT)) by by_check. assert (B : wf_meta ex_id4) by by_check. split; auto. split; auto. split; [by_check|]. split; [by_check|]. split; [apply look_vnode; [auto|vm_compute; reflexivity]|].
  split; [split; [exists (lf "index" INT 0)|split; [exists (lf "name" STR 0)|exists (lf "description" STR 0)]]; (split; [|split; reflexivity]); simpl; auto|].
  split; [exists (strs "v"), [], None; apply look_vnode; [auto|vm_compute; reflexivity]|]. discriminate.
Qed.
Example C25_identifiers_example : let rule sm tm src h m n sl tl st := type_change sm tm src (fun _ => []) (fun _ => None) (fun _ => None) (fun z => Some (ex_float z)) ex_asarray (fun _ => []) ex_close ex_int ex_enum h m n sl tl st in
  let st1 := fst (rule (ex_v1 INT) ex_id4 (NStruct []) H_to_identifier (Meta (strs "v") (KLeaf INT 1) []) (leaf (VIntA [2] [2; 7]%Z)) (at_ "v") (at_ "v") (ex_st (NStruct []))) in
  fsize ex_id4 (c_tree st1) (at_ "v") = Some 2 /\ fval ex_id4 (c_tree st1) [Child (strs "v"); Elem 0; Child (strs "name")] = Some (VStr (strs "two")) /\
  fval ex_id4 (c_tree st1) [Child (strs "v"); Elem 1; Child (strs "index")] = Some (VInt 7) /\ fval ex_id4 (c_tree st1) [Child (strs "v"); Elem 1; Child (strs "name")] = None.
Proof. cbv zeta. split; [vm_compute; reflexivity|]. split; [vm_compute; reflexivity|]. split; vm_compute; reflexivity. Qed.

(** ** Contours in an array, with the flag next to it; the first has a time *)
Definition ex_pts : list meta := [lf "r" FLT 1; lf "z" FLT 1; lf "time" FLT 0].
Definition ex_u3 : meta := Meta (strs "ids") KStruct [Meta (strs "unit") KStruct [Meta (strs "outlines") KAoS ex_pts; lf "closed" INT 0]].
Definition ex_u4 : meta := Meta (strs "ids") KStruct [Meta (strs "unit") KStruct [Meta (strs "outlines") KAoS ex_pts]].
Definition ol : loc := [Child (strs "unit"); Child (strs "outlines")].
Definition ex_els : list node := [NStruct [(strs "r", three 1 2 2); (strs "z", three 0 0 5); (strs "time", leaf (VFlt one))]; NStruct [(strs "r", three 7 8 9)]].
Definition ex_u3_n : node := NStruct [(strs "unit", NStruct [(strs "closed", leaf (VInt 1)); (strs "outlines", NAoS ex_els)])].
Lemma ex_els_holds : forall r e c v, part (NAoS ex_els) r e -> holds ex_pts e c v ->
  (r = [Elem 0] /\ (c = lf "r" FLT 1 /\ leaf v = three 1 2 2 \/ c = lf "z" FLT 1 /\ leaf v = three 0 0 5 \/ c = lf "time" FLT 0 /\ v = VFlt one)) \/ (r = [Elem 1] /\ c = lf "r" FLT 1 /\ leaf v = three 7 8 9).
Proof.
  intros r e c v P (I & _ & E). inversion P as [|? i ? N]; subst. destruct i as [|[|[|i]]]; try discriminate N; injection N as <-; destruct I as [<-|[<-|[<-|[]]]]; vm_compute in E; try discriminate E; injection E as <-.
  - left. split; [reflexivity|]. left. split; [reflexivity|vm_compute; reflexivity].
  - left. split; [reflexivity|]. right; left. split; [reflexivity|vm_compute; reflexivity].
  - left. split; [reflexivity|]. right; right. split; [reflexivity|vm_compute; reflexivity].
  - right. split; [reflexivity|]. split; [reflexivity|vm_compute; reflexivity].
Qed.
Example C25_contours_hypotheses : wf_meta ex_u3 /\ wf_meta ex_u4 /\ str_ok ex_u3 /\ str_ok ex_u4 /\ conf ex_u3 ex_u3_n /\ conf ex_u4 (NStruct []) /\ vnode_at ex_u3 ex_u3_n ol (Meta (strs "outlines") KAoS ex_pts) (NAoS ex_els) /\ flag_at ex_u3 ex_u3_n ol 1 /\
  vnode_at ex_u4 (NStruct []) ol (Meta (strs "outlines") KAoS ex_pts) (NAoS []) /\ nothing ex_u4 (NStruct []) ol /\ ~ In (strs "closed") (map mname ex_pts) /\ contours ex_pts ex_pts (NAoS ex_els) /\ time_set ex_pts (NAoS ex_els) /\
  (forall r e c v a b, part (NAoS ex_els) r e -> holds ex_pts e c v -> mname c <> strs "time" -> ends v a b -> ex_close a a = true) /\
  flag_place_of ex_u3 (NStruct []) ol KAoS ex_pts [Child (strs "unit"); Child (strs "closed")].
Proof.
  assert (W3 : wf_meta ex_u3) by by_check. assert (W4 : wf_meta ex_u4) by by_check.
  split; auto. split; auto. split; [by_check|]. split; [by_check|]. split; [by_check|]. split; [by_check|]. split; [apply look_vnode; [auto|vm_compute; reflexivity]|].
  split. { eapply fa_beside; [apply look_vnode; [auto|vm_compute; reflexivity]|discriminate|]. apply look_vnode; [auto|]. vm_compute. reflexivity. }
  split; [apply look_vnode; [auto|vm_compute; reflexivity]|]. split; [apply nothing_new; reflexivity|]. split; [vm_compute; intros [E|[E|[E|[]]]]; discriminate|].
  split.
  { intros r e P c ch I E. right. exists c. split; auto. destruct I as [<-|[<-|[<-|[]]]]; [left; exists FLT; vm_compute; repeat split; discriminate|left; exists FLT; vm_compute; repeat split; discriminate|right; split; [reflexivity|split; [reflexivity|exists FLT, 0; split; reflexivity]]]. }
  split.
  { intros r e c v dt P HO K E. destruct (ex_els_holds r e c v P HO) as [(_ & [(-> & _)|[(-> & _)|(-> & ->)]])|(_ & -> & _)]; try discriminate K. injection K as <-. apply is_empty_spec in E. vm_compute in E. discriminate. }
  split.
  { intros r e c v a b P HO NT E. destruct (ex_els_holds r e c v P HO) as [(_ & [(_ & EV)|[(_ & EV)|(-> & _)]])|(_ & _ & EV)]; try (exfalso; apply NT; reflexivity); injection EV as ->; inversion E as [|k d a' b' E1 E2|]; subst; vm_compute in E1; injection E1 as <-; vm_compute; reflexivity. }
  right. split; [discriminate|]. exists [Meta (strs "outlines") KAoS ex_pts; lf "closed" INT 0], (lf "closed" INT 0). split; [reflexivity|]. split; [simpl; auto|]. split; [reflexivity|]. split; reflexivity.
Qed.
Example C25_contours_example : let st1 := fst (ex_rule ex_u3 ex_u4 ex_u3_n H_repeat_first_cond (Meta (strs "outlines") KAoS ex_pts) (NAoS ex_els) ol ol (ex_st (NStruct []))) in
  c_tree st1 = NStruct [(strs "unit", NStruct [(strs "outlines", NAoS [NStruct [(strs "r", leaf (VFltA [4] (map ex_float [1; 2; 2; 1]%Z))); (strs "z", leaf (VFltA [4] (map ex_float [0; 0; 5; 0]%Z))); (strs "time", leaf (VFlt one))];
     NStruct [(strs "r", leaf (VFltA [4] (map ex_float [7; 8; 9; 7]%Z)))]])])].
Proof. cbv zeta. vm_compute. reflexivity. Qed.
