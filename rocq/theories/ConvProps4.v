(** C25, continued: there and back. *)
From Verif Require Import Base PathModel TreeModel TreeSpec TreeProofs TreeProofs2 TreeProofs3 TreeProofs4 TreeCheck ValModel ValProofs ValProofs2 PrimModel PrimSpec PrimProps ConvModel ConvSpec ConvInverse
  ConvProofs ConvProofs2 ConvProofs3 ConvProofs4 ConvProofs5 ConvProps ConvProps2 ConvProps3.
From Verif Require VmapModel.
Import VmapModel(handler(..), nmap).

Lemma ne_fval : forall m n tl nm cs fs d w dt nd, look m n tl = Some (Meta nm KStruct cs, NStruct fs) -> NoDup (map mname cs) -> In d cs -> mkind d = KLeaf dt nd ->
  (ne d fs = Some (NLeaf (Some w)) <-> fval m n (tl ++ [Child (mname d)]) = Some w).
Proof.
  intros m n tl nm cs fs d w dt nd L ND I K. unfold fval. rewrite look_app, L. simpl. rewrite (proj2 (child_meta_iff cs (mname d) d ND)) by auto.
  destruct d as [dn dk dcs]. simpl in K. subst dk. unfold ne, child_or_new. cbn [mname look new_node mkind]. destruct (alookup dn fs) as [ch|] eqn:A; [|split; discriminate].
  destruct ch as [?|?|v]; cbn [has_value]; try (split; discriminate). destruct (leaf_has_value nd v) eqn:H; split; try discriminate; congruence.
Qed.
Lemma closed_ends : forall dt v w a b k, closed_up v w -> typed_array dt v -> value_shape v = [k] -> ends w a b -> a = b /\ exists y, ends v a y.
Proof.
  assert (G : forall A k (d d' : list A) sh' x y, with_row 0 [k] d sh' d' -> prod [k] = length d -> nth_error d' 0 = Some x -> nth_error d' (length d' - 1) = Some y -> x = y /\ nth_error d 0 = Some x /\ exists y, nth_error d (length d - 1) = Some y).
  { intros A k d d' sh' x y (k' & r & E & K & -> & LD & H1 & H2) P E0 E1. injection E as <- <-. cbn in LD, H1, H2, P.
    rewrite (H1 0) in E0 by lia. replace (length d' - 1) with (k * 1 + 0) in E1 by lia. rewrite (H2 0) in E1 by lia. split; [congruence|]. split; auto.
    destruct (nth_error d (length d - 1)) eqn:E; eauto. apply nth_error_None in E. lia. }
  intros dt v w a b k CU T SH E.
  inversion CU as [sh d sh' d' R|sh d sh' d' R|sh d sh' d' R]; subst; simpl in SH; subst sh; inversion T; subst; inversion E as [k0 d0 x y A1 A2|k0 d0 x y A1 A2|k0 d0 x y A1 A2]; subst;
    (destruct (G _ _ _ _ _ x y R ltac:(auto) ltac:(auto) ltac:(auto)) as (EQ & B1 & z & B2)); subst y; (split; [reflexivity|]).
  - exists (PInt z). constructor; auto.
  - exists (PFlt z). constructor; auto.
  - exists (PCpx (fst z) (snd z)). constructor; auto.
Qed.

Section Back.
Variables (m1 m2 : meta).               (* the older and the newer version *)
Variable src : node.
Variable str_of : pyval -> str.
Variable parse_float : str -> option flt.
Variable parse_cpx : str -> option (flt * flt).
Variable flt_of_int : Z -> option flt.
Variable np_cast : dtype -> pyval -> result pexn value.
Variable array_items : value -> list pyval.
Variable close : pyval -> pyval -> bool.
Variable np_int32 : flt -> result pexn Z.
Variable enum_of : list str -> option (Z -> option (str * str)).
Hypothesis W1 : wf_meta m1.
Hypothesis W2 : wf_meta m2.
Hypothesis SO1 : str_ok m1.
Hypothesis SO2 : str_ok m2.
Hypothesis casts : casts_arrays np_cast.
(** a rule applied to a source of metadata sm, with a target of metadata tm *)
Notation rule sm tm src := (type_change sm tm src str_of parse_float parse_cpx flt_of_int np_cast array_items close np_int32 enum_of).

(** 0D to 1D and back.  Only single-element arrays can be converted to 0D: others are left out. *)
Theorem C25_0d_1d : forall c1 c2 dt v sl tl st, casts_one np_cast -> mkind c1 = KLeaf dt 0 -> mkind c2 = KLeaf dt 1 -> val_ok dt 0 v -> ~ empty dt v -> (forall z, v = VInt z -> int32 z) ->
  place m2 (c_tree st) tl dt 1 ->
  exists st1 w, rule m1 m2 src H_0d_1d c1 (NLeaf (Some v)) sl tl st = (st1, Ok None) /\ one_of v w /\ fval m2 (c_tree st1) tl = Some w /\ only m2 tl (c_tree st) (c_tree st1) /\
    forall tl' st', place m1 (c_tree st') tl' dt 0 ->
    exists st2, rule m2 m1 (c_tree st1) H_0d_1d c2 (NLeaf (Some w)) tl tl' st' = (st2, Ok None) /\ fval m1 (c_tree st2) tl' = Some v /\ only m1 tl' (c_tree st') (c_tree st2).
Proof.
  intros c1 c2 dt v sl tl st CO K1 K2 VO NE I32 P.
  assert (X : exists w, one_of v w).
  { inversion VO as [s|z|f|r i| |sh ? N _ L|sh ? N _ L|sh ? N _ L]; subst; try (destruct sh; [congruence|discriminate]).
    - exists (VStrs [s]). constructor.
    - exists (VIntA [1] [z]). constructor. auto.
    - exists (VFltA [1] [f]). constructor.
    - exists (VCpxA [1] [(r, i)]). constructor. }
  destruct X as (w & O). destruct (to_1d m2 str_of parse_float parse_cpx flt_of_int np_cast array_items W2 c1 dt v w sl tl st CO K1 VO O P) as (st1 & A & F & ON).
  exists st1, w. split; [exact A|]. split; auto. split; auto. split; auto. intros tl' st' P'.
  eapply (to_0d m1 str_of parse_float parse_cpx flt_of_int np_cast array_items W1 casts c2 dt v w tl tl' st'); eauto.
Qed.
Theorem C25_1d_0d : forall c1 c2 dt v w sl tl st, casts_one np_cast -> mkind c1 = KLeaf dt 1 -> mkind c2 = KLeaf dt 0 -> val_ok dt 0 v -> ~ empty dt v -> one_of v w ->
  place m2 (c_tree st) tl dt 0 ->
  exists st1, rule m1 m2 src H_0d_1d c1 (NLeaf (Some w)) sl tl st = (st1, Ok None) /\ fval m2 (c_tree st1) tl = Some v /\ only m2 tl (c_tree st) (c_tree st1) /\
    forall tl' st', place m1 (c_tree st') tl' dt 1 ->
    exists st2, rule m2 m1 (c_tree st1) H_0d_1d c2 (NLeaf (Some v)) tl tl' st' = (st2, Ok None) /\ fval m1 (c_tree st2) tl' = Some w /\ only m1 tl' (c_tree st') (c_tree st2).
Proof.
  intros c1 c2 dt v w sl tl st CO K1 K2 VO NE O P.
  destruct (to_0d m2 str_of parse_float parse_cpx flt_of_int np_cast array_items W2 casts c1 dt v w sl tl st K1 VO NE O P) as (st1 & A & F & ON).
  exists st1. split; [exact A|]. split; auto. split; auto. intros tl' st' P'.
  eapply (to_1d m1 str_of parse_float parse_cpx flt_of_int np_cast array_items W1 c2 dt v w tl tl' st'); eauto.
Qed.
(** integer to float and back *)
Theorem C25_int_flt : forall c1 c2 z sl tl st, floats_exact flt_of_int -> int32_exact np_int32 -> mkind c1 = KLeaf INT 0 -> mkind c2 = KLeaf FLT 0 -> int32 z -> z <> EMPTY_INT ->
  place m2 (c_tree st) tl FLT 0 ->
  exists st1 f, rule m1 m2 src H_flt0d_int0d c1 (NLeaf (Some (VInt z))) sl tl st = (st1, Ok None) /\ feqz f z = true /\ fval m2 (c_tree st1) tl = Some (VFlt f) /\ only m2 tl (c_tree st) (c_tree st1) /\
    forall tl' st', place m1 (c_tree st') tl' INT 0 ->
    exists st2, rule m2 m1 (c_tree st1) H_flt0d_int0d c2 (NLeaf (Some (VFlt f))) tl tl' st' = (st2, Ok None) /\ fval m1 (c_tree st2) tl' = Some (VInt z) /\ only m1 tl' (c_tree st') (c_tree st2).
Proof.
  intros c1 c2 z sl tl st FE IE K1 K2 I NE P.
  destruct (to_flt m2 str_of parse_float parse_cpx flt_of_int np_cast array_items W2 casts np_int32 c1 z sl tl st FE K1 I P) as (st1 & f & A & _ & Q & F & ON).
  exists st1, f. split; [exact A|]. split; auto. split; auto. split; auto. intros tl' st' P'.
  eapply (to_int m1 str_of parse_float parse_cpx flt_of_int np_cast array_items W1 casts np_int32 c2 f z tl tl' st'); eauto.
Qed.
(** float to integer and back: the same number, if it is an integer; zero may lose its sign *)
Theorem C25_flt_int : forall c1 c2 f z sl tl st, floats_exact flt_of_int -> int32_exact np_int32 -> mkind c1 = KLeaf FLT 0 -> mkind c2 = KLeaf INT 0 -> feqz f z = true -> int32 z -> z <> EMPTY_INT ->
  place m2 (c_tree st) tl INT 0 ->
  exists st1, rule m1 m2 src H_flt0d_int0d c1 (NLeaf (Some (VFlt f))) sl tl st = (st1, Ok None) /\ fval m2 (c_tree st1) tl = Some (VInt z) /\ only m2 tl (c_tree st) (c_tree st1) /\
    forall tl' st', place m1 (c_tree st') tl' FLT 0 ->
    exists st2 f', rule m2 m1 (c_tree st1) H_flt0d_int0d c2 (NLeaf (Some (VInt z))) tl tl' st' = (st2, Ok None) /\ feqz f' z = true /\ fval m1 (c_tree st2) tl' = Some (VFlt f') /\ only m1 tl' (c_tree st') (c_tree st2).
Proof.
  intros c1 c2 f z sl tl st FE IE K1 K2 Q I NE P.
  destruct (to_int m2 str_of parse_float parse_cpx flt_of_int np_cast array_items W2 casts np_int32 c1 f z sl tl st IE K1 Q I NE P) as (st1 & A & F & ON).
  exists st1. split; [exact A|]. split; auto. split; auto. intros tl' st' P'.
  destruct (to_flt m1 str_of parse_float parse_cpx flt_of_int np_cast array_items W1 casts np_int32 c2 z tl tl' st' FE K2 I P') as (st2 & f' & A' & _ & Q' & F' & ON'). exists st2, f'. auto.
Qed.
(** A structure is copied to the only element of an array, and from there to a structure. *)
Theorem C25_structure_array : forall c1 c2 fs sl tl st nm cs els, vnode_at m2 (c_tree st) tl (Meta nm KAoS cs) (NAoS els) ->
  exists st1, rule m1 m2 src H_structure_aos c1 (NStruct fs) sl tl st = (st1, Ok (Some (NStruct fs, sl, tl ++ [Elem 0]))) /\ vnode_at m2 (c_tree st1) tl (Meta nm KAoS cs) (NAoS [NStruct []]) /\
    (forall q, ~ within tl q -> fval m2 (c_tree st1) q = fval m2 (c_tree st) q /\ fsize m2 (c_tree st1) q = fsize m2 (c_tree st) q) /\
    forall n1 e, vnode_at m2 n1 tl (Meta nm KAoS cs) (NAoS [e]) -> forall tl' st' nm' cs' fs', vnode_at m1 (c_tree st') tl' (Meta nm' KStruct cs') (NStruct fs') ->
      rule m2 m1 n1 H_structure_aos c2 (NAoS [e]) tl tl' st' = (st', Ok (Some (e, tl ++ [Elem 0], tl'))).
Proof.
  intros c1 c2 fs sl tl st nm cs els V. destruct (to_array m2 W2 fs sl tl st nm cs els V) as (st1 & A & L & O). exists st1. split; [exact A|]. split; [apply look_vnode; auto|]. split; [exact O|].
  intros n1 e V1 tl' st' nm' cs' fs' V2. eapply to_structure; eauto.
Qed.

(** Contours: closed ones get the first point again at the end, and lose it on the way back; the flag is found from the points. *)
Theorem C25_contour : forall snm scs fs tnm tcs sl tl z st,
  vnode_at m1 src sl (Meta snm KStruct scs) (NStruct fs) -> conf m1 src -> flag_at m1 src sl z ->
  vnode_at m2 (c_tree st) tl (Meta tnm KStruct tcs) (NStruct []) -> conf m2 (c_tree st) -> ~ In (strs "closed") (map mname tcs) ->
  contour scs tcs (NStruct fs) ->
  (z <> 0%Z -> forall c v x y, holds scs (NStruct fs) c v -> ends v x y -> close x x = true) ->
  (z = 0%Z -> (forall c v, holds scs (NStruct fs) c v -> 1 < value_len v) /\ exists c v x y, holds scs (NStruct fs) c v /\ ends v x y /\ close x y = false) ->
  exists st1 fs1, rule m1 m2 src H_repeat_first_cond (Meta snm KStruct scs) (NStruct fs) sl tl st = (st1, Ok None) /\
    vnode_at m2 (c_tree st1) tl (Meta tnm KStruct tcs) (NStruct fs1) /\
    (forall c v, holds scs (NStruct fs) c v -> exists w, fval m2 (c_tree st1) (tl ++ [Child (mname c)]) = Some w /\ (z <> 0%Z -> closed_up v w) /\ (z = 0%Z -> w = v)) /\
    (forall q, (forall c v, holds scs (NStruct fs) c v -> q <> tl ++ [Child (mname c)]) -> fval m2 (c_tree st1) q = fval m2 (c_tree st) q /\ fsize m2 (c_tree st1) q = fsize m2 (c_tree st) q) /\
    forall tl' cl' st', conf m1 (c_tree st') -> live m1 (c_tree st') tl' scs -> flag_place m1 (c_tree st') tl' scs cl' ->
    exists st2, rule m2 m1 (c_tree st1) H_remove_last_cond (Meta tnm KStruct tcs) (NStruct fs1) tl tl' st' = (st2, Ok None) /\
      fval m1 (c_tree st2) cl' = Some (VInt (if (z =? 0)%Z then 0 else 1)) /\
      (forall c v, holds scs (NStruct fs) c v -> fval m1 (c_tree st2) (tl' ++ [Child (mname c)]) = Some v) /\
      (forall q, q <> cl' -> (forall c v, holds scs (NStruct fs) c v -> q <> tl' ++ [Child (mname c)]) -> fval m1 (c_tree st2) q = fval m1 (c_tree st') q /\ fsize m1 (c_tree st2) q = fsize m1 (c_tree st') q).
Proof.
  intros snm scs fs tnm tcs sl tl z st V C FL VT CT NCL CN ZN ZZ.
  destruct (vnode_conf _ _ _ _ _ V W1 C) as (Wm & Cm). destruct (vnode_conf _ _ _ _ _ VT W2 CT) as (Wt & Ctm). apply look_vnode in VT; auto.
  assert (NDs : NoDup (map mname scs)) by (inversion Wm; auto). assert (NDt : NoDup (map mname tcs)) by (inversion Wt; auto).
  assert (LV : live m2 (c_tree st) tl tcs) by (unfold live, info_at; rewrite VT; reflexivity).
  destruct (contour_closes m1 m2 src str_of parse_float parse_cpx flt_of_int np_cast array_items W1 W2 SO2 casts snm scs fs tcs sl tl z st Wm Cm FL CT LV CN) as (st1 & R1 & C1 & L1 & F1 & O1).
  destruct (live_look _ _ _ _ L1) as (tnm' & fs1 & LK1).
  assert (tnm' = tnm) as ->. { pose proof (loc_ok_fun _ _ _ W2 (look_loc_ok _ _ _ _ _ LK1) _ (look_loc_ok _ _ _ _ _ VT)) as X. injection X as ->. reflexivity. }
  assert (V1 : vnode_at m2 (c_tree st1) tl (Meta tnm KStruct tcs) (NStruct fs1)) by (apply look_vnode; auto).
  destruct (vnode_conf _ _ _ _ _ V1 W2 C1) as (_ & C1').
  (* the points of the new contour are those of the old one *)
  assert (HP : forall c v, holds scs (NStruct fs) c v -> exists d, In d tcs /\ point_child c d /\ exists dt, val_ok dt 1 v /\ leaf_has_value 1 (Some v) = true /\ mkind c = KLeaf dt 1).
  { intros c v (I & N & E). destruct (CN _ _ I E) as [X|(d & Id & PC)]; [contradiction|]. exists d. split; auto. split; auto. destruct PC as (dt & K & _). exists dt.
    destruct (ne_leaf c _ fs dt 1 snm scs Cm I E K) as (v' & EV & VO & HV). injection EV as <-. auto. }
  assert (NEW : forall d ch, In d tcs -> ne d fs1 = Some ch -> exists c v w, holds scs (NStruct fs) c v /\ mname c = mname d /\ point_child c d /\ ch = NLeaf (Some w) /\ fval m2 (c_tree st1) (tl ++ [Child (mname d)]) = Some w).
  { intros d ch Id E.
    assert (EX : exists c v, holds scs (NStruct fs) c v /\ mname c = mname d).
    { assert (NX : (exists c v, holds scs (NStruct fs) c v /\ mname c = mname d) \/ forall c v, holds scs (NStruct fs) c v -> mname c <> mname d).
      { destruct (in_dec str_dec (mname d) (map mname scs)) as [IN|NIN].
        - apply in_map_iff in IN as (c & EN & Ic). assert (U : forall c' v', holds scs (NStruct fs) c' v' -> mname c' = mname d -> ne c fs = Some (NLeaf (Some v'))).
          { intros c' v' (I' & _ & E') EN'. assert (c' = c) by (eapply (nodup_name scs); eauto; congruence). subst. exact E'. }
          destruct (ne c fs) as [[?|?|[v|]]|] eqn:NE; try (right; intros c' v' H' EN'; specialize (U c' v' H' EN'); discriminate).
          left. exists c, v. split; auto. split; auto. split; auto. rewrite EN. intros X. apply NCL. rewrite <- X. apply in_map; auto.
        - right. intros c v (I & _) EN. apply NIN. rewrite <- EN. apply in_map; auto. }
      destruct NX as [X|X]; auto. exfalso.
      (* otherwise it was filled before *)
      unfold ne in E. destruct (alookup (mname d) fs1) as [x|] eqn:A; [|discriminate]. destruct (has_value d x) eqn:H; [|discriminate].
      assert (Wd : wf_meta d) by (inversion Wt; auto). assert (Cd : conf d x) by (inversion C1' as [| |? ? ? CC _ _|]; eauto).
      apply obs_nonempty in H; auto. destruct H as (r & H).
      assert (LD : look m2 (c_tree st1) (tl ++ Child (mname d) :: r) = look d x r).
      { rewrite look_app, LK1. simpl. rewrite (proj2 (child_meta_iff tcs (mname d) d NDt)) by auto. unfold child_or_new. rewrite A. reflexivity. }
      assert (L0 : look m2 (c_tree st) (tl ++ Child (mname d) :: r) = look d (new_node d) r).
      { rewrite look_app, VT. simpl. rewrite (proj2 (child_meta_iff tcs (mname d) d NDt)) by auto. reflexivity. }
      destruct (O1 (tl ++ Child (mname d) :: r)) as (Q1 & Q2).
      { intros c v HO EQ. apply app_inv_head in EQ. injection EQ as EQ _. symmetry in EQ. revert EQ. apply (X c v); auto. }
      assert (Z : has_value d (new_node d) = true).
      { apply obs_nonempty; auto using new_node_conf. exists r. unfold fval, fsize in *. rewrite LD, L0 in Q1, Q2. rewrite <- Q1, <- Q2. exact H. }
      destruct d as [dn [| |ddt dnd] dcs]; simpl in Z; try discriminate. apply existsb_exists in Z as (? & _ & Z). discriminate. }
    destruct EX as (c & v & HO & EN). destruct (HP c v HO) as (d' & Id' & PC & _). pose proof PC as PC0. destruct PC as (dt & K & Kd & NS & N & _).
    assert (d' = d) by (eapply nodup_name; eauto; congruence). subst d'.
    destruct (ne_leaf d ch fs1 dt 1 tnm tcs C1' Id E Kd) as (w & -> & _). exists c, v, w. repeat (split; auto). apply (proj1 (ne_fval m2 (c_tree st1) tl tnm tcs fs1 d w dt 1 LK1 NDt Id Kd)); auto. }
  assert (OLD : forall c v, holds scs (NStruct fs) c v -> exists d w, holds tcs (NStruct fs1) d w /\ mname d = mname c /\ fval m2 (c_tree st1) (tl ++ [Child (mname c)]) = Some w).
  { intros c v HO. destruct (HP c v HO) as (d & Id & PC & _). destruct PC as (dt & K & Kd & NS & N & NC & _). destruct (F1 c v HO) as (w & E & _). exists d, w. split; [|auto].
    split; auto. split; [rewrite N; auto|]. simpl. apply (ne_fval m2 (c_tree st1) tl tnm tcs fs1 d w dt 1 LK1 NDt Id Kd). rewrite N. auto. }
  assert (SAME : forall c v c' v', holds scs (NStruct fs) c v -> holds scs (NStruct fs) c' v' -> mname c = mname c' -> c = c' /\ v = v').
  { intros c v c' v' (I & _ & E) (I' & _ & E') EN. assert (c = c') by (apply (nodup_name scs); auto). subst. split; congruence. }
  exists st1, fs1. split; [exact R1|]. split; auto. split; [exact F1|]. split; [exact O1|].
  intros tl' cl' st' C2 L2 FP.
  assert (CB : contour tcs scs (NStruct fs1)).
  { intros d ch Id E. destruct (NEW d ch Id E) as (c & v & w & (Ic & _) & EN & PC & _). right. exists c. split; auto. destruct PC as (dt & K & Kd & NS & N & N1 & N2 & N3). exists dt. rewrite N. repeat (split; auto). }
  assert (BK : forall d w, holds tcs (NStruct fs1) d w -> exists c v, holds scs (NStruct fs) c v /\ mname c = mname d /\ (z <> 0%Z -> closed_up v w) /\ (z = 0%Z -> w = v)).
  { intros d w (Id & _ & E). destruct (NEW d _ Id E) as (c & v & w' & HO & EN & PC & EW & FV). injection EW as <-. exists c, v. split; auto. split; auto.
    destruct (F1 c v HO) as (w2 & E2 & A & B). rewrite EN, FV in E2. injection E2 as <-. auto. }
  destruct (contour_opens m1 str_of parse_float parse_cpx flt_of_int np_cast array_items close W1 SO1 casts tnm tcs fs1 scs tl tl' cl' st' Wt C1' C2 L2 FP CB NCL) as (st2 & b & R2 & _ & FF & BS & F2 & O2).
  { intros d w HO. destruct (BK d w HO) as (c & v & HS & EN & A & B). destruct (Z.eq_dec z 0) as [->|NZ].
    - rewrite (B eq_refl). apply (ZZ eq_refl) in HS. auto.
    - specialize (A NZ). inversion A as [? ? ? ? R|? ? ? ? R|? ? ? ? R]; subst; destruct R as (k & r & -> & K & -> & LD & _); destruct HO as (Id & _ & E);
        destruct (NEW d _ Id E) as (c' & v' & w' & _ & _ & PC & _); destruct PC as (dt & Kc & Kd & _);
        destruct (ne_leaf d _ fs1 dt 1 tnm tcs C1' Id E Kd) as (w'' & EW & VO & _); injection EW as <-; inversion VO; subst; destruct r; try discriminate; simpl; lia. }
  assert (BZ : b = negb (z =? 0)%Z).
  { destruct (Z.eqb_spec z 0) as [->|NZ]; simpl.
    - destruct b; auto. exfalso. destruct (ZZ eq_refl) as (_ & c & v & x & y & HS & E & CF). destruct (OLD c v HS) as (d & w & HO & EN & _). destruct (BK d w HO) as (c' & v' & HS' & EN' & _ & B).
      destruct (SAME c v c' v' HS HS' ltac:(congruence)) as (<- & <-).
      rewrite (proj1 BS eq_refl d w x y) in CF; auto; [discriminate|]. rewrite (B eq_refl). auto.
    - apply BS. intros d w x y HO E. destruct (BK d w HO) as (c & v & HS & EN & A & _). specialize (A NZ). destruct (HP c v HS) as (_ & _ & _ & dt & VO & _ & Kc).
      assert (T : typed_array dt v /\ exists k, value_shape v = [k]).
      { inversion VO; subst; inversion A; subst; (split; [constructor; auto|]); simpl; destruct sh as [|? [|? ?]]; try congruence; try discriminate; eauto. }
      destruct T as (T & k & SH). destruct (closed_ends dt v w x y k A T SH E) as (-> & y' & E'). apply (ZN NZ c v y y'); auto. }
  exists st2. split; [exact R2|]. split; [rewrite FF, BZ; destruct (z =? 0)%Z; reflexivity|]. split.
  - intros c v HS. destruct (OLD c v HS) as (d & w & HO & EN & FV). destruct (F2 d w HO) as (u & FU & U1 & U2). rewrite EN in FU. rewrite FU. f_equal.
    destruct (BK d w HO) as (c' & v' & HS' & EN' & A & B).
    destruct (SAME c v c' v' HS HS' ltac:(congruence)) as (<- & <-).
    destruct (Z.eqb_spec z 0) as [->|NZ]; simpl in BZ.
    + rewrite U2 by auto. auto.
    + specialize (U1 BZ). destruct (HP c v HS) as (_ & _ & _ & dt & VO & _). rewrite (drop_last_spec v w) in U1; [congruence|eauto|auto].
  - intros q NQ1 NQ2. apply O2; auto. intros d w HO. destruct (BK d w HO) as (c & v & HS & EN & _). rewrite <- EN. apply (NQ2 c v HS).
Qed.
End Back.
