(** C25: cases that meet the hypotheses, and values that do not survive the way there and back. *)
From Verif Require Import Base PathModel TreeModel TreeSpec TreeProofs TreeProofs2 TreeProofs3 TreeProofs4 TreeCheck ValModel ValProofs ValProofs2 PrimModel PrimSpec PrimProps ConvModel ConvSpec ConvInverse
  ConvProofs ConvProofs2 ConvProofs3 ConvProofs4 ConvProofs5 ConvProps ConvProps2 ConvProps3 ConvProps4.
From Verif Require VmapModel.
Import VmapModel(handler(..), nmap).

Print Assumptions C25_sign_flip.
Print Assumptions C25_connections.
Print Assumptions C25_close_open.
Print Assumptions C25_open_close.
Print Assumptions C25_0d_1d.
Print Assumptions C25_1d_0d.
Print Assumptions C25_int_flt.
Print Assumptions C25_flt_int.
Print Assumptions C25_structure_array.
Print Assumptions C25_contour.

(** ** Python and numpy: functions that are as required *)
(** float(z), exact for integers of 32 bits *)
Definition ex_float (z : Z) : flt :=
  if (z =? 0)%Z then 0%Z else
  let e := Z.log2 (Z.abs z) in ((if (z <? 0)%Z then 2 ^ 63 else 0) + (e + 1023) * 2 ^ 52 + (Z.abs z * 2 ^ (52 - e) - 2 ^ 52))%Z.
(** numpy.int32(f), for floats that are integers *)
Definition ex_int (f : flt) : result pexn Z :=
  let z := if (0 <=? f_pow f)%Z then (f_frac f * 2 ^ f_pow f)%Z else (f_frac f / 2 ^ (- f_pow f))%Z in
  if feqz f z then Ok z else Err ValueErr.
(** numpy.asarray: of an array of the type, or a list of one number *)
Definition ex_asarray (dt : dtype) (p : pyval) : result pexn value :=
  match dt, p with
  | INT, PArr (VIntA sh d) => if prod sh =? length d then Ok (VIntA sh d) else Err ValueErr
  | FLT, PArr (VFltA sh d) => if prod sh =? length d then Ok (VFltA sh d) else Err ValueErr
  | CPX, PArr (VCpxA sh d) => if prod sh =? length d then Ok (VCpxA sh d) else Err ValueErr
  | INT, PList [PInt z] => Ok (VIntA [1] [z])
  | FLT, PList [PFlt f] => Ok (VFltA [1] [f])
  | CPX, PList [PCpx r i] => Ok (VCpxA [1] [(r, i)])
  | _, _ => Err ValueErr
  end.
Lemma ex_float_exact : floats_exact (fun z => Some (ex_float z)).
Proof.
  intros z I. exists (ex_float z). split; auto. unfold int32 in I. unfold ex_float. destruct (Z.eqb_spec z 0) as [->|NZ]; [split; [lia|reflexivity]|]. cbv zeta.
  set (a := Z.abs z). assert (A : (0 < a <= 2 ^ 31)%Z) by (unfold a; lia). set (e := Z.log2 a).
  assert (E : (0 <= e <= 31)%Z). { split; [apply Z.log2_nonneg|]. change 31%Z with (Z.log2 (2 ^ 31)). apply Z.log2_le_mono. lia. }
  assert (LG : (2 ^ e <= a < 2 ^ (e + 1))%Z) by (apply (Z.log2_spec a); lia).
  set (mm := (a * 2 ^ (52 - e) - 2 ^ 52)%Z).
  assert (P0 : (2 ^ e * 2 ^ (52 - e) = 2 ^ 52)%Z) by (rewrite <- Z.pow_add_r by lia; f_equal; lia).
  assert (P1 : (2 ^ (e + 1) * 2 ^ (52 - e) = 2 ^ 53)%Z) by (rewrite <- Z.pow_add_r by lia; f_equal; lia).
  assert (PP : (0 < 2 ^ (52 - e))%Z) by (apply Z.pow_pos_nonneg; lia).
  assert (MM : (0 <= mm < 2 ^ 52)%Z) by (unfold mm; nia).
  set (s := if (z <? 0)%Z then 1%Z else 0%Z). assert (S : (s = 0 \/ s = 1)%Z) by (unfold s; destruct (z <? 0)%Z; auto).
  replace ((if (z <? 0)%Z then 2 ^ 63 else 0) + (e + 1023) * 2 ^ 52 + mm)%Z with ((s * 2 ^ 11 + (e + 1023)) * 2 ^ 52 + mm)%Z by (unfold s; destruct (z <? 0)%Z; lia).
  set (f := ((s * 2 ^ 11 + (e + 1023)) * 2 ^ 52 + mm)%Z).
  assert (FR : (0 <= f < 2 ^ 64)%Z) by (unfold f; destruct S as [-> | ->]; lia).
  split; auto.
  assert (FM : f_man f = mm). { unfold f_man. rewrite Z.land_ones by lia. unfold f. rewrite Z.add_comm, Z.mod_add by lia. apply Z.mod_small. auto. }
  assert (FD : (f / 2 ^ 52 = s * 2 ^ 11 + (e + 1023))%Z). { unfold f. rewrite Z.div_add_l by lia. rewrite (Z.div_small mm) by auto. lia. }
  assert (FE : f_exp f = (e + 1023)%Z). { unfold f_exp. rewrite Z.land_ones, Z.shiftr_div_pow2 by lia. rewrite FD, Z.add_comm, Z.mod_add by lia. apply Z.mod_small. lia. }
  assert (FN : f_neg f = (z <? 0)%Z).
  { unfold f_neg. rewrite Z.testbit_odd, Z.shiftr_div_pow2 by lia. replace (2 ^ 63)%Z with (2 ^ 52 * 2 ^ 11)%Z by reflexivity. rewrite <- Z.div_div by lia. rewrite FD, Z.div_add_l by lia. rewrite (Z.div_small (e + 1023)) by lia.
    unfold s. destruct (z <? 0)%Z; reflexivity. }
  unfold feqz, f_pow, f_frac. rewrite FE, FM, FN. destruct (Z.eqb_spec (e + 1023) 2047); [lia|]. destruct (Z.eqb_spec (e + 1023) 0); [lia|]. destruct (Z.leb_spec 0 (e + 1023 - 1075)); [lia|].
  cbn [negb andb]. replace (- (e + 1023 - 1075))%Z with (52 - e)%Z by lia. apply Z.eqb_eq. unfold mm, a. destruct (Z.ltb_spec z 0); [rewrite Z.abs_neq by lia|rewrite Z.abs_eq by lia]; ring.
Qed.
Lemma ex_int_exact : int32_exact ex_int.
Proof.
  intros f z _ Q. unfold ex_int. assert (E : (if (0 <=? f_pow f)%Z then (f_frac f * 2 ^ f_pow f)%Z else (f_frac f / 2 ^ (- f_pow f))%Z) = z).
  { unfold feqz in Q. apply Bool.andb_true_iff in Q as (_ & Q). destruct (Z.leb_spec 0 (f_pow f)); apply Z.eqb_eq in Q; auto. rewrite Q. apply Z.div_mul. apply Z.pow_nonzero; lia. }
  cbv zeta. rewrite E, Q. reflexivity.
Qed.
Lemma ex_asarray_arrays : casts_arrays ex_asarray.
Proof.
  split.
  - intros dt p v. unfold ex_asarray.
    destruct dt; destruct p as [s|o|z|b|f|re im| |l|w|w|dt' nd' w]; try discriminate;
      try (destruct w; try discriminate; match goal with |- context [if ?c then _ else _] => destruct c eqn:E end; [|discriminate]; intros [= <-]; constructor; apply Nat.eqb_eq; auto);
      destruct l as [|x l]; try discriminate; destruct x; try discriminate; destruct l; try discriminate; intros [= <-]; constructor; reflexivity.
  - intros dt v H. destruct H; simpl; rewrite H, Nat.eqb_refl; reflexivity.
Qed.
Lemma ex_asarray_one : casts_one ex_asarray.
Proof. intros dt v w O NS VO. destruct O; inversion VO; subst; try congruence; reflexivity. Qed.
(** numpy.isclose, at least for the same number *)
Definition ex_close (x y : pyval) : bool :=
  match x, y with PInt a, PInt b => (a =? b)%Z | PFlt a, PFlt b => feq a b | PCpx a b, PCpx c d => feq a c && feq b d | _, _ => false end.
Notation ex_post m h l st := (post_process m (fun _ => []) (fun _ => None) (fun _ => None) (fun z => Some (ex_float z)) ex_asarray (fun _ => []) h l st).
Notation ex_rule sm tm src h m n sl tl st :=
  (type_change sm tm src (fun _ => []) (fun _ => None) (fun _ => None) (fun z => Some (ex_float z)) ex_asarray (fun _ => []) ex_close ex_int (fun _ => None) h m n sl tl st).
Definition ex_st (n : node) : cst := {| c_tree := n; c_shared := [] |}.
Definition leaf (v : value) : node := NLeaf (Some v).
Definition one : flt := ex_float 1.

(** ** Signs *)
Definition ex_psi : meta := Meta (strs "ids") KStruct [lf "psi" FLT 1; lf "ip" FLT 0; lf "n" INT 0].
Definition at_ (s : string) : loc := [Child (strs s)].
Definition ex_psi_n : node := NStruct [(strs "psi", leaf (VFltA [2] [one; 0%Z])); (strs "n", leaf (VInt 3))].
Example C25_sign_hypotheses : wf_meta ex_psi /\ str_ok ex_psi /\ data_node ex_psi (at_ "psi") FLT 1 /\ fval ex_psi ex_psi_n (at_ "psi") = Some (VFltA [2] [one; 0%Z]) /\
  val_ok FLT 1 (VFltA [2] [one; 0%Z]) /\ data_node ex_psi (at_ "n") INT 0 /\ ~ empty INT (VInt 3) /\ (forall w, opposite (VInt 3) w -> ~ empty INT w).
Proof.
  split; [by_check|]. split; [by_check|]. split; [exists (strs "psi"), []; apply (lo_child _ _ (lf "psi" FLT 1)); [simpl; auto|constructor]|]. split; [reflexivity|].
  split; [apply (vo_flta [2]); [discriminate|reflexivity]|]. split; [exists (strs "n"), []; apply (lo_child _ _ (lf "n" INT 0)); [simpl; auto|constructor]|].
  split; [intros E; apply is_empty_spec in E; discriminate|]. intros w O E. apply is_empty_spec in E. inversion O; subst. discriminate.
Qed.
Example C25_sign_example : c_tree (fst (ex_post ex_psi H_cocos (at_ "psi") (ex_st ex_psi_n))) = NStruct [(strs "psi", leaf (VFltA [2] [ex_float (-1); (2 ^ 63)%Z])); (strs "n", leaf (VInt 3))].
Proof. vm_compute. reflexivity. Qed.
(** The opposite of 9e40 or 999999999 stands for "empty": the value is gone. *)
Theorem C25_sign_flip_refuted : exists st st1 z, fval ex_psi (c_tree st) (at_ "n") = Some (VInt z) /\ ~ empty INT (VInt z) /\
  ex_post ex_psi H_cocos (at_ "n") st = (st1, Ok tt) /\ fval ex_psi (c_tree st1) (at_ "n") = None.
Proof.
  exists (ex_st (NStruct [(strs "n", leaf (VInt 999999999))])), (ex_st (NStruct [(strs "n", NLeaf None)])), 999999999%Z.
  split; [reflexivity|]. split; [intros E; apply is_empty_spec in E; discriminate|]. split; vm_compute; reflexivity.
Qed.
Print Assumptions C25_sign_flip_refuted.

(** ** Connections *)
Definition ex_pf : meta := Meta (strs "ids") KStruct [lf "connections" INT 2].
Example C25_connections_hypotheses : data_node ex_pf (at_ "connections") INT 2 /\ connections (VIntA [2; 4] [1; 0; 0; 0; 0; 1; 1; 0]%Z) (VIntA [2; 2] [1; 0; -1; 1]%Z) /\ filled_value (VIntA [2; 4] [1; 0; 0; 0; 0; 1; 1; 0]%Z).
Proof.
  split; [exists (strs "connections"), []; apply (lo_child _ _ (lf "connections" INT 2)); [simpl; auto|constructor]|]. split; [|vm_compute; auto; discriminate].
  apply (cn 2 2); [reflexivity|]. repeat constructor.
Qed.
(** A supply that is connected on both sides becomes one that is not connected. *)
Theorem C25_connections_refuted : exists st st1 st2 v v', fval ex_pf (c_tree st) (at_ "connections") = Some v /\
  ex_post ex_pf H_connections_3to4 (at_ "connections") st = (st1, Ok tt) /\ ex_post ex_pf H_connections_4to3 (at_ "connections") st1 = (st2, Ok tt) /\
  fval ex_pf (c_tree st2) (at_ "connections") = Some v' /\ v' <> v.
Proof.
  exists (ex_st (NStruct [(strs "connections", leaf (VIntA [1; 2] [1; 1]%Z))])), (ex_st (NStruct [(strs "connections", leaf (VIntA [1; 1] [0%Z]))])),
    (ex_st (NStruct [(strs "connections", leaf (VIntA [1; 2] [0; 0]%Z))])), (VIntA [1; 2] [1; 1]%Z), (VIntA [1; 2] [0; 0]%Z).
  split; [reflexivity|]. split; [vm_compute; reflexivity|]. split; [vm_compute; reflexivity|]. split; [reflexivity|discriminate].
Qed.
Print Assumptions C25_connections_refuted.

(** ** Contours *)
(** version 3: the flag is part of the contour, and a closed contour does not repeat its first point *)
Definition ex_c3 : meta := Meta (strs "ids") KStruct [Meta (strs "outline") KStruct [lf "r" FLT 1; lf "z" FLT 1; lf "closed" INT 0]].
Definition ex_c4 : meta := Meta (strs "ids") KStruct [Meta (strs "outline") KStruct [lf "r" FLT 1; lf "z" FLT 1]].
Definition three (a b c : Z) : node := leaf (VFltA [3] [ex_float a; ex_float b; ex_float c]).
Definition ex_fs : list (str * node) := [(strs "r", three 1 2 2); (strs "closed", leaf (VInt 1)); (strs "z", three 0 0 5)].
Definition ex_c3_n : node := NStruct [(strs "outline", NStruct ex_fs)].
Definition ex_c4_n : node := NStruct [(strs "outline", NStruct [])].
Lemma ex_fs_holds : forall scs c v, scs = mchildren (Meta (strs "outline") KStruct [lf "r" FLT 1; lf "z" FLT 1; lf "closed" INT 0]) -> holds scs (NStruct ex_fs) c v ->
  (c = lf "r" FLT 1 /\ leaf v = three 1 2 2) \/ (c = lf "z" FLT 1 /\ leaf v = three 0 0 5).
Proof.
  intros scs c v -> ([<-|[<-|[<-|[]]]] & N & E); vm_compute in E; [left|right|exfalso; apply N; reflexivity]; (split; [reflexivity|]); injection E as <-; vm_compute; reflexivity.
Qed.
Example C25_contour_hypotheses : let scs := mchildren (Meta (strs "outline") KStruct [lf "r" FLT 1; lf "z" FLT 1; lf "closed" INT 0]) in let tcs := [lf "r" FLT 1; lf "z" FLT 1] in
  wf_meta ex_c3 /\ wf_meta ex_c4 /\ str_ok ex_c3 /\ str_ok ex_c4 /\ conf ex_c3 ex_c3_n /\ conf ex_c4 ex_c4_n /\
  vnode_at ex_c3 ex_c3_n (at_ "outline") (Meta (strs "outline") KStruct scs) (NStruct ex_fs) /\ flag_at ex_c3 ex_c3_n (at_ "outline") 1 /\
  vnode_at ex_c4 ex_c4_n (at_ "outline") (Meta (strs "outline") KStruct tcs) (NStruct []) /\ ~ In (strs "closed") (map mname tcs) /\
  contour scs tcs (NStruct ex_fs) /\ (forall c v x y, holds scs (NStruct ex_fs) c v -> ends v x y -> ex_close x x = true) /\
  flag_place ex_c3 (NStruct []) (at_ "outline") scs (at_ "outline" ++ at_ "closed") /\ live ex_c3 (NStruct []) (at_ "outline") scs.
Proof.
  cbv zeta. assert (W3 : wf_meta ex_c3) by by_check. assert (W4 : wf_meta ex_c4) by by_check.
  split; auto. split; auto. split; [by_check|]. split; [by_check|]. split; [by_check|]. split; [by_check|].
  split; [apply look_vnode; [auto|vm_compute; reflexivity]|].
  split. { eapply fa_child; [apply look_vnode; [auto|vm_compute; reflexivity]|vm_compute; auto|]. apply look_vnode; [auto|]. vm_compute. reflexivity. }
  split; [apply look_vnode; [auto|vm_compute; reflexivity]|].
  split; [vm_compute; intros [E|[E|[]]]; discriminate|].
  split.
  { intros c ch I E. destruct I as [<-|[<-|[<-|[]]]]; [right; exists (lf "r" FLT 1); split; [simpl; auto|exists FLT; vm_compute; repeat split; discriminate]|right; exists (lf "z" FLT 1); split; [simpl; auto|exists FLT; vm_compute; repeat split; discriminate]|left; reflexivity]. }
  split.
  { intros c v x y HO E. apply ex_fs_holds in HO; auto. destruct HO as [(_ & EV)|(_ & EV)]; injection EV as ->; inversion E as [|k d a b E1 E2|]; subst; vm_compute in E1; injection E1 as <-; vm_compute; reflexivity. }
  split; [|reflexivity]. left. exists (lf "closed" INT 0). split; [simpl; auto|]. split; [reflexivity|]. split; reflexivity.
Qed.
Example C25_contour_example : let st1 := fst (ex_rule ex_c3 ex_c4 ex_c3_n H_repeat_first_cond (Meta (strs "outline") KStruct [lf "r" FLT 1; lf "z" FLT 1; lf "closed" INT 0]) (NStruct ex_fs) (at_ "outline") (at_ "outline") (ex_st ex_c4_n)) in
  c_tree st1 = NStruct [(strs "outline", NStruct [(strs "r", leaf (VFltA [4] (map ex_float [1; 2; 2; 1]%Z))); (strs "z", leaf (VFltA [4] (map ex_float [0; 0; 5; 0]%Z)))])] /\
  forall fs1, c_tree st1 = NStruct [(strs "outline", NStruct fs1)] ->
  c_tree (fst (ex_rule ex_c4 ex_c3 (c_tree st1) H_remove_last_cond (Meta (strs "outline") KStruct [lf "r" FLT 1; lf "z" FLT 1]) (NStruct fs1) (at_ "outline") (at_ "outline") (ex_st (NStruct [])))) =
    NStruct [(strs "outline", NStruct [(strs "closed", leaf (VInt 1)); (strs "r", three 1 2 2); (strs "z", three 0 0 5)])].
Proof.
  cbv zeta. split; [vm_compute; reflexivity|]. intros fs1 E. vm_compute in E. injection E as <-. vm_compute. reflexivity.
Qed.
(** An open contour whose last point is the first (closed = 0) is taken for a closed one on the way back, and loses its last point. *)
Theorem C25_contour_refuted : exists fs st1 fs1 st2 v v', let src := NStruct [(strs "outline", NStruct fs)] in
  flag_at ex_c3 src (at_ "outline") 0 /\ fval ex_c3 src [Child (strs "outline"); Child (strs "r")] = Some v /\
  ex_rule ex_c3 ex_c4 src H_repeat_first_cond (Meta (strs "outline") KStruct [lf "r" FLT 1; lf "z" FLT 1; lf "closed" INT 0]) (NStruct fs) (at_ "outline") (at_ "outline") (ex_st ex_c4_n) = (st1, Ok None) /\
  c_tree st1 = NStruct [(strs "outline", NStruct fs1)] /\
  ex_rule ex_c4 ex_c3 (c_tree st1) H_remove_last_cond (Meta (strs "outline") KStruct [lf "r" FLT 1; lf "z" FLT 1]) (NStruct fs1) (at_ "outline") (at_ "outline") (ex_st (NStruct [])) = (st2, Ok None) /\
  fval ex_c3 (c_tree st2) [Child (strs "outline"); Child (strs "r")] = Some v' /\ v' <> v.
Proof.
  exists [(strs "r", three 1 2 1); (strs "closed", leaf (VInt 0))]. eexists. exists [(strs "r", three 1 2 1)]. eexists. exists (VFltA [3] (map ex_float [1; 2; 1]%Z)), (VFltA [2] (map ex_float [1; 2]%Z)). cbv zeta.
  split. { assert (W3 : wf_meta ex_c3) by by_check. eapply fa_child; [apply look_vnode; [auto|vm_compute; reflexivity]|vm_compute; auto|]. apply look_vnode; [auto|]. vm_compute. reflexivity. }
  split; [vm_compute; reflexivity|]. split; [vm_compute; reflexivity|]. split; [vm_compute; reflexivity|]. split; [vm_compute; reflexivity|]. split; [vm_compute; reflexivity|vm_compute; discriminate].
Qed.
Print Assumptions C25_contour_refuted.
(** A contour whose flag [closed] is not set is treated as closed: the integer that stands for "empty" is not 0. *)
Theorem C25_unset_flag_closes : exists st1, let fs := [(strs "r", three 1 2 3)] in
  ex_rule ex_c3 ex_c4 (NStruct [(strs "outline", NStruct fs)]) H_repeat_first_cond (Meta (strs "outline") KStruct [lf "r" FLT 1; lf "z" FLT 1; lf "closed" INT 0]) (NStruct fs) (at_ "outline") (at_ "outline") (ex_st ex_c4_n) = (st1, Ok None) /\
  fval ex_c4 (c_tree st1) [Child (strs "outline"); Child (strs "r")] = Some (VFltA [4] (map ex_float [1; 2; 3; 1]%Z)).
Proof. eexists. cbv zeta. split; vm_compute; reflexivity. Qed.

(** ** 0D and 1D, integers and floats, structures and arrays *)
Definition ex_v0 (dt : dtype) : meta := Meta (strs "ids") KStruct [Meta (strs "v") (KLeaf dt 0) []].
Definition ex_v1 (dt : dtype) : meta := Meta (strs "ids") KStruct [Meta (strs "v") (KLeaf dt 1) []].
Example C25_0d_1d_example : place (ex_v1 INT) (NStruct []) (at_ "v") INT 1 /\ place (ex_v0 INT) (NStruct []) (at_ "v") INT 0 /\
  c_tree (fst (ex_rule (ex_v0 INT) (ex_v1 INT) (NStruct [(strs "v", leaf (VInt 4))]) H_0d_1d (Meta (strs "v") (KLeaf INT 0) []) (leaf (VInt 4)) (at_ "v") (at_ "v") (ex_st (NStruct [])))) = NStruct [(strs "v", leaf (VIntA [1] [4%Z]))] /\
  c_tree (fst (ex_rule (ex_v1 INT) (ex_v0 INT) (NStruct [(strs "v", leaf (VIntA [1] [4%Z]))]) H_0d_1d (Meta (strs "v") (KLeaf INT 1) []) (leaf (VIntA [1] [4%Z])) (at_ "v") (at_ "v") (ex_st (NStruct [])))) = NStruct [(strs "v", leaf (VInt 4))].
Proof.
  assert (W1 : wf_meta (ex_v1 INT)) by by_check. assert (W0 : wf_meta (ex_v0 INT)) by by_check.
  split; [exists (strs "v"), [], None; apply look_vnode; [auto|vm_compute; reflexivity]|]. split; [exists (strs "v"), [], None; apply look_vnode; [auto|vm_compute; reflexivity]|]. split; vm_compute; reflexivity.
Qed.
(** An array with more than one element is left out, without an exception. *)
Theorem C25_1d_0d_refuted : exists v st1, fval (ex_v1 INT) (NStruct [(strs "v", leaf v)]) (at_ "v") = Some v /\
  ex_rule (ex_v1 INT) (ex_v0 INT) (NStruct [(strs "v", leaf v)]) H_0d_1d (Meta (strs "v") (KLeaf INT 1) []) (leaf v) (at_ "v") (at_ "v") (ex_st (NStruct [])) = (st1, Ok None) /\
  fval (ex_v0 INT) (c_tree st1) (at_ "v") = None.
Proof. exists (VIntA [2] [4; 5]%Z), (ex_st (NStruct [])). split; [reflexivity|]. split; vm_compute; reflexivity. Qed.
Print Assumptions C25_1d_0d_refuted.
Example C25_int_flt_example : floats_exact (fun z => Some (ex_float z)) /\ int32_exact ex_int /\ feqz (ex_float 7) 7 = true /\
  c_tree (fst (ex_rule (ex_v0 INT) (ex_v0 FLT) (NStruct [(strs "v", leaf (VInt 7))]) H_flt0d_int0d (Meta (strs "v") (KLeaf INT 0) []) (leaf (VInt 7)) (at_ "v") (at_ "v") (ex_st (NStruct [])))) = NStruct [(strs "v", leaf (VFlt (ex_float 7)))] /\
  c_tree (fst (ex_rule (ex_v0 FLT) (ex_v0 INT) (NStruct [(strs "v", leaf (VFlt (ex_float 7)))]) H_flt0d_int0d (Meta (strs "v") (KLeaf FLT 0) []) (leaf (VFlt (ex_float 7))) (at_ "v") (at_ "v") (ex_st (NStruct [])))) = NStruct [(strs "v", leaf (VInt 7))].
Proof. split; [apply ex_float_exact|]. split; [apply ex_int_exact|]. split; [vm_compute; reflexivity|]. split; vm_compute; reflexivity. Qed.
Example C25_structure_array_example : let m2 := Meta (strs "ids") KStruct [Meta (strs "v") KAoS [lf "x" INT 0]] in wf_meta m2 /\ vnode_at m2 (NStruct []) (at_ "v") (Meta (strs "v") KAoS [lf "x" INT 0]) (NAoS []).
Proof. cbv zeta. split; [by_check|]. apply look_vnode; [by_check|vm_compute; reflexivity]. Qed.

(** the contour of version 4: what the rules for postprocessing are applied to *)
Definition ex_ring : node := NStruct [(strs "outline", NStruct [(strs "r", three 1 2 1); (strs "z", three 0 5 0)])].
Example C25_close_open_hypotheses : let cs := [lf "r" FLT 1; lf "z" FLT 1] in
  conf ex_c4 ex_ring /\ loc_ok ex_c4 (at_ "outline") (Meta (strs "outline") KStruct cs) /\ points ex_c4 ex_ring (at_ "outline") cs /\
  (forall c v, In c cs -> fval ex_c4 ex_ring (at_ "outline" ++ [Child (mname c)]) = Some v -> exists dt u, typed_array dt u /\ closed_up u v).
Proof.
  cbv zeta. split; [by_check|]. split; [apply (lo_child _ _ (Meta (strs "outline") KStruct [lf "r" FLT 1; lf "z" FLT 1])); [simpl; auto|constructor]|]. split; [split|].
  - exists (at_ "r"). left. vm_compute. discriminate.
  - intros c r [<-|[<-|[]]] [H|(k & H)]; (destruct r as [|x r]; [split; auto; exists FLT; eexists; split; [vm_compute; reflexivity|constructor; reflexivity]|exfalso]); destruct x; vm_compute in H; congruence.
  - intros c v [<-|[<-|[]]] E; vm_compute in E; injection E as <-; exists FLT; [exists (VFltA [2] [ex_float 1; ex_float 2])|exists (VFltA [2] [ex_float 0; ex_float 5])]; (split; [constructor; reflexivity|]);
      constructor; exists 2, []; (split; [reflexivity|]); (split; [lia|]); (split; [reflexivity|]); (split; [reflexivity|]); (split; intros j J; simpl in J); do 2 (try (destruct j as [|j]; [vm_compute; reflexivity|])); lia.
Qed.
