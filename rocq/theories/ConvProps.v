(** C24: converting an IDS copies every convertible value and invents none. *)
From Verif Require Import Base PathModel PathSpec TreeModel TreeSpec TreeProofs TreeCheck ValModel ValProofs2 PrimModel PrimSpec PrimProps TreeProofs2 ConvModel ConvSpec ConvProofs ConvProofs2 ConvProofs3 ConvProofs4 ConvProofs5 ConvCheck.
From Verif Require VmapModel.
Import VmapModel(handler(..), nmap).

Lemma conf_new : forall m, mkind m = KStruct -> conf m (NStruct []).
Proof. intros [nm k cs] K. simpl in K. subst k. apply (new_node_conf (Meta nm KStruct cs)). Qed.
(** [stored_values], decided *)
Fixpoint stored_b (m : meta) (n : node) {struct n} : bool :=
  match n with
  | NLeaf (Some v) => match mkind m with KLeaf dt 0 => negb (is_empty dt v) | _ => true end
  | NLeaf None => true
  | NAoS els => forallb (stored_b (Meta (mname m) KStruct (mchildren m))) els
  | NStruct fs => forallb (fun x => match child_meta (fst x) (mchildren m) with Some c => stored_b c (snd x) | None => true end) fs
  end.

Section C24.
Variables (sm tm : meta).
Variable src : node.
Variable rm : nmap.
Variable deepcopy : bool.
(* Python and numpy: conversions of single values *)
Variable str_of : pyval -> str.
Variable parse_float : str -> option flt.
Variable parse_cpx : str -> option (flt * flt).
Variable flt_of_int : Z -> option flt.
Variable np_cast : dtype -> pyval -> result pexn value.
Variable array_items : value -> list pyval.
Variable close : pyval -> pyval -> bool.
Variable np_int32 : flt -> result pexn Z.
Variable enum_of : list str -> option (Z -> option (str * str)).
Notation copy := (copy_toplevel sm tm src rm deepcopy str_of parse_float parse_cpx flt_of_int np_cast array_items close np_int32 enum_of).

(** numpy.asarray gives a numeric array, and gives back an array that has the right type already *)
Definition casts_arrays : Prop :=
  (forall dt p v, np_cast dt p = Ok v -> typed_array dt v) /\ (forall dt v, typed_array dt v -> np_cast dt (PArr v) = Ok v).
(** no data node holds the value that stands for "empty" (PrimProps: assignment does not store it) *)
Definition stored_values : Prop := forall s nm dt cs v, node_at sm src s (Meta nm (KLeaf dt 0) cs) (NLeaf (Some v)) -> ~ empty dt v.
Definition versions_ok : Prop :=
  wf_meta sm /\ wf_meta tm /\ mkind sm = KStruct /\ mkind tm = KStruct /\ str_ok tm /\ fits sm tm rm.

(** Everything in the source that is not removed and has no special rule has a place in the target. *)
Theorem C24_has_place : versions_ok -> conf sm src -> forall s,
  (exists v, leaf_at sm src s v) \/ (exists k, aos_at sm src s k) -> ~ removed rm (loc_names s) -> ~ ruled rm (loc_names s) ->
  exists t, goes_to tm rm s t /\ forall t', goes_to tm rm s t' -> t' = t.
Proof.
  intros (W1 & W2 & K1 & K2 & SO & F) C s PR NR NU.
  destruct (present_meta sm tm src W1 K1 K2 s PR) as (m' & n' & N & K & NE & NN & NNN & AP & L).
  destruct (ft_target _ _ _ F _ _ AP NNN NR (not_ruled_above rm _ NU) (or_introl K)) as (q & mt & MP & QN & AQ & KQ & FA).
  destruct (loc_exists q tm mt (loc_idx s) W2 K2 AQ QN) as (t & T1 & T2 & T3 & T4).
  { rewrite (arrays_root _ _ _ W1 K1 L NE) in FA.
    assert (LEN : length (map loc_names (befores [] s)) = length (arrays tm [] q)) by (clear - FA; induction FA; simpl; congruence).
    rewrite map_length, befores_len in LEN. exact LEN. }
  assert (G : goes_to tm rm s t). { split; [rewrite T2; exact MP|]. split; auto. split; eauto. }
  exists t. split; auto. intros t' G'. eapply goes_fun; eauto.
Qed.

(** The conversion, if it does not raise an exception: each filled value and each array of structures arrives at its place; what is
    in the target afterwards came from there, from a special rule, or was there before. *)
Theorem C24_copied : versions_ok -> casts_arrays -> stored_values -> conf sm src -> forall tgt0 sh st',
  conf tm tgt0 -> copy {| c_tree := tgt0; c_shared := sh |} = (st', Ok tt) ->
  conf tm (c_tree st') /\
  (forall s v t, leaf_at sm src s v -> ~ removed rm (loc_names s) -> ~ ruled rm (loc_names s) -> goes_to tm rm s t ->
     ~ by_rule sm tm src rm t -> leaf_at tm (c_tree st') t v) /\
  (forall s k t, aos_at sm src s k -> ~ removed rm (loc_names s) -> ~ ruled rm (loc_names s) -> goes_to tm rm s t ->
     ~ by_rule sm tm src rm t -> aos_at tm (c_tree st') t k) /\
  (forall t v, leaf_at tm (c_tree st') t v ->
     (exists s, leaf_at sm src s v /\ ~ removed rm (loc_names s) /\ ~ ruled rm (loc_names s) /\ goes_to tm rm s t) \/
     by_rule sm tm src rm t \/ leaf_at tm tgt0 t v) /\
  (forall t k, aos_at tm (c_tree st') t k ->
     (exists s, aos_at sm src s k /\ ~ removed rm (loc_names s) /\ ~ ruled rm (loc_names s) /\ goes_to tm rm s t) \/
     by_rule sm tm src rm t \/ aos_at tm tgt0 t k).
Proof.
  intros (W1 & W2 & K1 & K2 & SO & F) (NT & NS) PR C tgt0 sh st' CT RUN.
  assert (CF : conf tm (c_tree st')).
  { rewrite copy_toplevel_eq in RUN. pose proof (copy_children_conf sm tm src rm deepcopy str_of parse_float parse_cpx flt_of_int np_cast array_items close np_int32 enum_of
      W2 SO NT (mchildren sm) (node_fields src) [] [] {| c_tree := tgt0; c_shared := sh |} CT) as H. rewrite RUN in H. exact H. }
  apply copy_toplevel_J in RUN; auto. destruct RUN as (A & B & D & E).
  split; auto. split; [|split; [|split]].
  - intros s v t LA R U G NB. apply fval_leaf; auto. eapply A; eauto. split; auto.
  - intros s k t LA R U G NB. assert (k > 0) by (destruct LA as (? & ? & _ & _ & _ & ?); auto). destruct k as [|k]; [lia|].
    apply fsize_aos; auto. eapply B; eauto. split; auto.
  - intros t v LA. apply fval_leaf in LA; auto. destruct (D t v LA) as [(s & _ & X & (Y & Z) & G)|[X|X]]; [left; eauto 6|auto|].
    right. right. apply fval_leaf; auto.
  - intros t k LA. assert (k > 0) by (destruct LA as (? & ? & _ & _ & _ & ?); auto). destruct k as [|k]; [lia|].
    apply fsize_aos in LA; auto. destruct (E t k LA) as [(s & _ & X & (Y & Z) & G)|[X|X]]; [left; eauto 6|auto|].
    right. right. apply fsize_aos; auto.
Qed.

(** Into a new IDS, without special rules for anything that is filled: exactly the values that are not removed, at their places. *)
Theorem C24_exactly : versions_ok -> casts_arrays -> stored_values -> conf sm src -> forall st',
  (forall s m n, node_at sm src s m n -> nonempty m n -> ~ ruled rm (loc_names s)) ->
  copy {| c_tree := NStruct []; c_shared := [] |} = (st', Ok tt) ->
  forall t v, leaf_at tm (c_tree st') t v <-> exists s, leaf_at sm src s v /\ ~ removed rm (loc_names s) /\ goes_to tm rm s t.
Proof.
  intros V NC PR C st' NU RUN t v.
  assert (CN : conf tm (NStruct [])).
  { apply conf_new. apply V. }
  destruct (C24_copied V NC PR C _ _ _ CN RUN) as (_ & A & _ & B & _).
  assert (NB : forall l, ~ by_rule sm tm src rm l).
  { intros l (s & t' & m & n & N & NE & NN & NR & RU & _). apply (NU _ _ _ N NE). exists (loc_names s), []. rewrite app_nil_r. split; auto. split; auto.
    intros E. destruct V as (_ & _ & K1 & _). destruct s as [|[x|i] s]; [congruence|discriminate E|]. inversion N. match goal with H : _ = sm |- _ => rewrite <- H in K1; discriminate end. }
  split.
  - intros L. destruct (B t v L) as [(s & H1 & H2 & H3 & H4)|[H|H]]; [eauto|exfalso; eapply NB; eauto|]. exfalso.
    destruct H as (m' & _ & N & _). inversion N; subst; discriminate.
  - intros (s & LA & NR & G). eapply A; eauto. destruct LA as (m' & LF & N & FV). eapply NU; eauto.
    exists []. left. exists v. exists m'. split; auto. split; auto. constructor.
Qed.
End C24.
Lemma stored_b_sound : forall m n, wf_meta m -> stored_b m n = true -> stored_values m n.
Proof.
  intros m n W H s nm dt cs v N. remember (Meta nm (KLeaf dt 0) cs) as mm. remember (NLeaf (Some v)) as nn.
  induction N as [m n|nm' cs' fs c ch l m' n' I A N IH|nm' cs' els i e l m' n' NT N IH]; subst.
  - simpl in H. intros E. apply is_empty_spec in E. rewrite E in H. discriminate.
  - apply IH; auto; [inversion W; auto|]. simpl in H. rewrite forallb_forall in H. specialize (H (mname c, ch)). simpl in H.
    rewrite (proj2 (child_meta_iff cs' (mname c) c ltac:(inversion W; auto))) in H by auto. apply H. eapply alookup_In; eauto.
  - apply IH; auto; [eapply wf_struct; eauto|]. simpl in H. rewrite forallb_forall in H. apply H. eapply nth_error_In; eauto.
Qed.
Print Assumptions C24_has_place.
Print Assumptions C24_copied.
Print Assumptions C24_exactly.

(** ** An example: an array of structures that moves, a value that is removed, and one that becomes an array *)
Definition lf (n : string) (dt : dtype) (nd : nat) : meta := Meta (strs n) (KLeaf dt nd) [].
Definition ex_old : meta := Meta (strs "ids") KStruct
  [lf "comment" STR 0; Meta (strs "aa") KAoS [lf "b" FLT 1; lf "old" INT 0]; lf "gone" INT 0; lf "val" FLT 0].
Definition ex_new : meta := Meta (strs "ids") KStruct
  [Meta (strs "xx") KStruct [Meta (strs "yy") KAoS [lf "new" INT 0; lf "b" FLT 1]]; lf "comment" STR 0; lf "val" FLT 1].
Definition ex_map : nmap :=
  VmapModel.set_type (strs "val") (Some H_0d_1d)
  (VmapModel.set_path (strs "gone") None (VmapModel.set_path (strs "aa/old") (Some (strs "xx/yy/new"))
  (VmapModel.set_path (strs "aa/b") (Some (strs "xx/yy/b")) (VmapModel.set_path (strs "aa") (Some (strs "xx/yy")) VmapModel.empty_map)))).
Definition ex_src : node := NStruct
  [(strs "comment", NLeaf (Some (VStr (strs "hi")))); (strs "gone", NLeaf (Some (VInt 3))); (strs "val", NLeaf (Some (VFlt 7%Z)));
   (strs "aa", NAoS [NStruct [(strs "b", NLeaf (Some (VFltA [2] [1%Z; 2%Z])))]; NStruct [(strs "old", NLeaf (Some (VInt 5)))]])].
Definition ex_cast (dt : dtype) (p : pyval) : result pexn value :=
  match dt, p with
  | INT, PArr (VIntA sh d) => if prod sh =? length d then Ok (VIntA sh d) else Err ValueErr
  | FLT, PArr (VFltA sh d) => if prod sh =? length d then Ok (VFltA sh d) else Err ValueErr
  | CPX, PArr (VCpxA sh d) => if prod sh =? length d then Ok (VCpxA sh d) else Err ValueErr
  | FLT, PList [PFlt f] => Ok (VFltA [1] [f])
  | _, _ => Err ValueErr
  end.
Definition ex_run (m : meta) (m' : meta) (r : nmap) (n : node) : cst * result cexn unit :=
  copy_toplevel m m' n r true (fun _ => []) (fun _ => None) (fun _ => None) Some ex_cast (fun _ => []) (fun _ _ => true) (fun f => Ok f) (fun _ => None)
    {| c_tree := NStruct []; c_shared := [] |}.
Lemma ex_casts : casts_arrays ex_cast.
Proof.
  split.
  - intros dt p v. unfold ex_cast.
    destruct dt; destruct p as [s|o|z|b|f|re im| |l|w|w|dt' nd' w]; try discriminate;
      try (destruct w; try discriminate; match goal with |- context [if ?c then _ else _] => destruct c eqn:E end; [|discriminate]; intros [= <-]; constructor; apply Nat.eqb_eq; auto).
    destruct l as [|x l]; [discriminate|]. destruct x; try discriminate. destruct l; [|discriminate]. intros [= <-]. constructor. reflexivity.
  - intros dt v H. destruct H; simpl; rewrite H, Nat.eqb_refl; reflexivity.
Qed.
Example C24_example_hypotheses : versions_ok ex_old ex_new ex_map /\ casts_arrays ex_cast /\ stored_values ex_old ex_src /\ conf ex_old ex_src.
Proof.
  split; [|split; [apply ex_casts|split; [|by_check]]].
  - split; [by_check|]. split; [by_check|]. split; [reflexivity|]. split; [reflexivity|]. split; [by_check|]. apply fits_b_sound. vm_compute. reflexivity.
  - apply stored_b_sound; [by_check|vm_compute; reflexivity].
Qed.
Example C24_example : let (st, r) := ex_run ex_old ex_new ex_map ex_src in r = Ok tt /\
  c_tree st = NStruct
    [(strs "comment", NLeaf (Some (VStr (strs "hi"))));
     (strs "xx", NStruct [(strs "yy", NAoS [NStruct [(strs "b", NLeaf (Some (VFltA [2] [1%Z; 2%Z])))]; NStruct [(strs "new", NLeaf (Some (VInt 5)))]])]);
     (strs "val", NLeaf (Some (VFltA [1] [7%Z])))].
Proof. vm_compute. auto. Qed.
