(** C24: the conversion finishes. *)
From Verif Require Import Base PathModel PathSpec PathProofs3 TreeModel TreeSpec TreeProofs TreeProofs2 TreeCheck TreeProofs4 ValModel ValProofs PrimModel PrimSpec PrimProps ConvModel ConvSpec ConvProofs ConvProofs2 ConvProofs3 ConvProofs4 ConvProofs5 ConvCheck ConvProps ConvProgress.
From Verif Require VmapModel.
Import VmapModel(handler(..), nmap).

Section C24.
Variables (sm tm : meta).
Variable src : node.
Variable rm : nmap.
Variable deepcopy : bool.
Variable str_of : pyval -> str.
Variable parse_float : str -> option flt.
Variable parse_cpx : str -> option (flt * flt).
Variable flt_of_int : Z -> option flt.
Variable np_cast : dtype -> pyval -> result pexn value.
Variable array_items : value -> list pyval.
Variable close : pyval -> pyval -> bool.
Variable np_int32 : flt -> result pexn Z.
Variable enum_of : list str -> option (Z -> option (str * str)).
Notation copy := (copy_toplevel sm tm src rm deepcopy str_of parse_float parse_cpx flt_of_int np_cast array_items close np_int32 enum_of).
Notation versions_ok := (versions_ok sm tm rm).
Notation casts_arrays := (casts_arrays np_cast).
Notation stored_values := (stored_values sm src).

(** If nothing that is filled has a special rule and every structure that is found by its name is a structure in the target as well, the
    conversion raises no exception, whatever is in the target already. *)
Theorem C24_finishes : versions_ok -> casts_arrays -> stored_values -> conf sm src -> structures_ok sm tm rm ->
  (forall s m n, node_at sm src s m n -> nonempty m n -> ~ ruled rm (loc_names s)) ->
  forall tgt sh, conf tm tgt -> exists st', copy {| c_tree := tgt; c_shared := sh |} = (st', Ok tt).
Proof.
  intros (W1 & W2 & K1 & K2 & SO & F) (NT & NS) PR C SOK NU tgt sh CT. apply finishes_toplevel; auto.
Qed.
(** So a new IDS holds exactly the values that are not removed, at their places. *)
Theorem C24_converts : versions_ok -> casts_arrays -> stored_values -> conf sm src -> structures_ok sm tm rm ->
  (forall s m n, node_at sm src s m n -> nonempty m n -> ~ ruled rm (loc_names s)) ->
  exists st', copy {| c_tree := NStruct []; c_shared := [] |} = (st', Ok tt) /\ conf tm (c_tree st') /\
  (forall t v, leaf_at tm (c_tree st') t v <-> exists s, leaf_at sm src s v /\ ~ removed rm (loc_names s) /\ goes_to tm rm s t) /\
  (forall t k, aos_at tm (c_tree st') t k <-> exists s, aos_at sm src s k /\ ~ removed rm (loc_names s) /\ goes_to tm rm s t).
Proof.
  intros V NC PR C SOK NU. assert (CN : conf tm (NStruct [])) by (apply conf_new; apply V).
  destruct (C24_finishes V NC PR C SOK NU _ [] CN) as (st' & RUN). exists st'. split; auto.
  destruct (C24_copied _ _ _ _ _ _ _ _ _ _ _ _ _ _ V NC PR C _ _ _ CN RUN) as (CF & _ & A & _ & B). split; auto.
  split; [eapply C24_exactly; eauto|].
  assert (NB : forall l, ~ by_rule sm tm src rm l) by (destruct V as (_ & _ & K1 & _); eapply no_rule; eauto).
  intros t k. split.
  - intros L. destruct (B t k L) as [(s & H1 & H2 & H3 & H4)|[H|H]]; [eauto|exfalso; eapply NB; eauto|]. exfalso.
    destruct H as (m' & els & N & K & _). inversion N; subst; discriminate.
  - intros (s & LA & NR & G). eapply A; eauto. destruct LA as (m' & els & N & K & LE & GT). eapply NU; eauto.
    exists []. right. exists k. exists m', els. split; [constructor|auto].
Qed.
End C24.
Print Assumptions C24_finishes.
Print Assumptions C24_converts.

(** ** Deciding [structures_ok] *)
Section Check.
Variables (sm tm : meta).
Variable rm : nmap.
Definition has_path (q : list str) : bool := existsb (fun x => list_eqb str_eqb (fst x) q) (paths tm).
Lemma has_path_spec : forall q, has_path q = true <-> exists m, at_path tm q m.
Proof.
  intros q. unfold has_path. rewrite existsb_exists. split.
  - intros ([p m] & I & E). apply list_eqb_str in E. simpl in E. subst. exists m. apply paths_sound; auto.
  - intros (m & AP). exists (q, m). split; [apply paths_complete; auto|]. apply list_eqb_str. reflexivity.
Qed.
Definition walk_step (s : list str * list str) (nm : str) : list str * list str :=
  let p := fst s ++ [nm] in
  (p, match entry rm p with
      | Some (Some t) => match t with [] => [] | _ => split_on "/"%char t end
      | Some None => []
      | None => if has_path (snd s ++ [nm]) then snd s ++ [nm] else snd s
      end).
Definition walk_to (p : list str) : list str := snd (fold_left walk_step p ([], [])).
Lemma walk_fst : forall p, fst (fold_left walk_step p ([], [])) = p.
Proof. induction p as [|x p IH] using rev_ind; auto. rewrite fold_left_app. simpl. rewrite IH. reflexivity. Qed.
Lemma walk_to_spec : forall p q, (forall p m, at_path tm p m -> Forall is_name p) -> walk tm rm p q -> walk_to p = q.
Proof.
  intros p q NM W. induction W as [|p q NE E (m & AP)|p nm q W IH E HP|p nm q W IH E HP]; auto.
  - destruct (exists_last NE) as (p' & x & ->). unfold walk_to. rewrite fold_left_app. simpl. rewrite walk_fst, E.
    pose proof (NM _ _ AP) as FN. destruct q as [|y q]; [reflexivity|].
    assert (SJ : split_on "/"%char (slashed (y :: q)) = y :: q).
    { apply split_join; [discriminate|]. intros z I. apply name_no; try reflexivity; try discriminate. rewrite Forall_forall in FN. auto. }
    destruct (slashed (y :: q)) eqn:SL; [|exact SJ]. exfalso. apply (f_equal (fun l => hd [] l)) in SJ. simpl in SJ. inversion FN as [|? ? IY]; subst. apply name_nonnil in IY. auto.
  - unfold walk_to in *. rewrite fold_left_app. simpl. rewrite walk_fst, E, IH. apply has_path_spec in HP. rewrite HP. reflexivity.
  - unfold walk_to in *. rewrite fold_left_app. simpl. rewrite walk_fst, E, IH.
    destruct (has_path (q ++ [nm])) eqn:H; auto. exfalso. apply HP. apply has_path_spec; auto.
Qed.
Definition structures_b : bool :=
  forallb (fun x => match rev (fst x) with
                    | [] => true
                    | nm :: rp => if kind_b (mkind (snd x)) KStruct && negb (removed_b rm (fst x)) && negb (ruled_b rm (fst x))
                                    && match entry rm (fst x) with None => true | Some _ => false end
                                  then forallb (fun y => negb (list_eqb str_eqb (fst y) (walk_to (rev rp) ++ [nm])) || kind_b (mkind (snd y)) KStruct) (paths tm)
                                  else true
                    end) (paths sm).
Lemma structures_b_sound : fits sm tm rm -> structures_b = true -> structures_ok sm tm rm.
Proof.
  intros F H p nm m' q mq AP K NR NU E W AQ. unfold structures_b in H. rewrite forallb_forall in H.
  specialize (H _ (paths_complete _ _ _ AP)). simpl in H. rewrite rev_app_distr in H. simpl in H. rewrite rev_involutive in H.
  apply kind_b_spec in K. rewrite K in H.
  destruct (removed_b rm (p ++ [nm])) eqn:RB; [exfalso; apply NR, removed_b_spec; auto|].
  destruct (ruled_b rm (p ++ [nm])) eqn:UB; [exfalso; apply NU, ruled_b_spec; auto|]. rewrite E in H. simpl in H.
  rewrite forallb_forall in H. specialize (H _ (paths_complete _ _ _ AQ)). simpl in H.
  rewrite (walk_to_spec p q (ft_names_t _ _ _ F) W) in H. rewrite (proj2 (list_eqb_str _ _) eq_refl) in H. simpl in H. apply kind_b_spec; auto.
Qed.
(** [no node that is filled has a special rule], decided for all paths *)
Definition unruled_b : bool := forallb (fun x => negb (ruled_b rm (fst x))) (paths sm).
Lemma unruled_b_sound : unruled_b = true -> forall p m, at_path sm p m -> ~ ruled rm p.
Proof.
  intros H p m AP U. unfold unruled_b in H. rewrite forallb_forall in H. specialize (H _ (paths_complete _ _ _ AP)). simpl in H.
  apply ruled_b_spec in U. rewrite U in H. discriminate.
Qed.
End Check.

(** ** Examples *)
(** an array of structures moves out of a structure, a structure disappears but what it contains stays where it was or is renamed; the
    rule for [val] is not needed *)
Definition fin_old : meta := Meta (strs "ids") KStruct
  [lf "comment" STR 0; Meta (strs "s") KStruct [lf "name" STR 0; Meta (strs "u") KStruct [lf "old" INT 1]];
   Meta (strs "aa") KAoS [lf "b" FLT 1; Meta (strs "w") KStruct [Meta (strs "cc") KAoS [lf "d" INT 0]]]; lf "gone" INT 0].
Definition fin_new : meta := Meta (strs "ids") KStruct
  [Meta (strs "s") KStruct [lf "name" STR 0; lf "new" INT 1];
   Meta (strs "xx") KStruct [Meta (strs "yy") KAoS [lf "b" FLT 1; Meta (strs "cc") KAoS [lf "d" INT 0]]]; lf "comment" STR 0].
Definition fin_map : nmap :=
  VmapModel.set_path (strs "s/u/old") (Some (strs "s/new"))
  (VmapModel.set_path (strs "gone") None (VmapModel.set_path (strs "aa/w/cc/d") (Some (strs "xx/yy/cc/d"))
  (VmapModel.set_path (strs "aa/w/cc") (Some (strs "xx/yy/cc"))
  (VmapModel.set_path (strs "aa/b") (Some (strs "xx/yy/b")) (VmapModel.set_path (strs "aa") (Some (strs "xx/yy")) VmapModel.empty_map))))).
Definition fin_src : node := NStruct
  [(strs "comment", NLeaf (Some (VStr (strs "hi")))); (strs "gone", NLeaf (Some (VInt 3)));
   (strs "s", NStruct [(strs "u", NStruct [(strs "old", NLeaf (Some (VIntA [1] [4%Z])))])]);
   (strs "aa", NAoS [NStruct [(strs "b", NLeaf (Some (VFltA [2] [1%Z; 2%Z])))];
                     NStruct [(strs "w", NStruct [(strs "cc", NAoS [NStruct []; NStruct [(strs "d", NLeaf (Some (VInt 8)))]])])]])].
Example C24_finishes_hypotheses : versions_ok fin_old fin_new fin_map /\ casts_arrays ex_cast /\ stored_values fin_old fin_src /\ conf fin_old fin_src /\
  structures_ok fin_old fin_new fin_map /\ (forall s m n, node_at fin_old fin_src s m n -> nonempty m n -> ~ ruled fin_map (loc_names s)).
Proof.
  assert (F : fits fin_old fin_new fin_map) by (apply fits_b_sound; vm_compute; reflexivity).
  split; [|split; [apply ex_casts|split; [|split; [by_check|split]]]].
  - split; [by_check|]. split; [by_check|]. split; [reflexivity|]. split; [reflexivity|]. split; [by_check|]. exact F.
  - apply stored_b_sound; [by_check|vm_compute; reflexivity].
  - apply structures_b_sound; [exact F|vm_compute; reflexivity].
  - intros s m n _ _ (a & b & E & NA & [H|H]); exact (H eq_refl).
Qed.
Example C24_finishes_example : let (st, r) := ex_run fin_old fin_new fin_map fin_src in r = Ok tt /\
  leaf_at fin_new (c_tree st) [Child (strs "xx"); Child (strs "yy"); Elem 1; Child (strs "cc"); Elem 1; Child (strs "d")] (VInt 8).
Proof.
  destruct (ex_run fin_old fin_new fin_map fin_src) as [st r] eqn:E. vm_compute in E. injection E as <- <-. split; auto.
  apply fval_leaf; [by_check|by_check|]. vm_compute. reflexivity.
Qed.

(** [structures_ok] is needed: a structure inside another one whose name is that of a data node in the other version: [name in target_structure]
    fails for a data node. *)
Definition bad_old : meta := Meta (strs "ids") KStruct [lf "comment" STR 0; Meta (strs "s") KStruct [Meta (strs "u") KStruct [lf "old" INT 0]]].
Definition bad_new : meta := Meta (strs "ids") KStruct [lf "s" STR 0; lf "comment" STR 0; Meta (strs "t") KStruct [lf "old" INT 0; lf "new" INT 0]].
Definition bad_map : nmap := VmapModel.set_path (strs "s/u/old") (Some (strs "t/new")) VmapModel.empty_map.
Definition bad_src : node := NStruct [(strs "s", NStruct [(strs "u", NStruct [(strs "old", NLeaf (Some (VInt 3)))])])].
Theorem C24_finishes_without_structures_refuted : exists sm tm rm src, versions_ok sm tm rm /\ casts_arrays ex_cast /\ stored_values sm src /\ conf sm src /\
  (forall s m n, node_at sm src s m n -> nonempty m n -> ~ ruled rm (loc_names s)) /\ exists e, snd (ex_run sm tm rm src) = Err e.
Proof.
  exists bad_old, bad_new, bad_map, bad_src. split; [|split; [apply ex_casts|split; [|split; [by_check|split]]]].
  - split; [by_check|]. split; [by_check|]. split; [reflexivity|]. split; [reflexivity|]. split; [by_check|]. apply fits_b_sound; vm_compute; reflexivity.
  - apply stored_b_sound; [by_check|vm_compute; reflexivity].
  - intros s m n _ _ (a & b & E & NA & [H|H]); exact (H eq_refl).
  - vm_compute. eauto.
Qed.
Print Assumptions C24_finishes_without_structures_refuted.
