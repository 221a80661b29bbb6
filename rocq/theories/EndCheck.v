(** Verified checks of the conditions of EndSpec.v, for the examples. *)
From Verif Require Import Base DataTypeModel PathModel PathSpec PathProofs3 TreeModel TreeSpec TreeProofs4 ValModel ConvSpec ConvProofs3 ConvProofs4 ConvCheck.
From Verif Require VmapModel VmapProofs VmapProofs2 VmapProofs4.
From Verif Require Import VmapSpec EndSpec EndProofs4.
Import VmapModel(fields, e_path, e_type, e_nbc, n_versions, n_desc, elem, by_path, has).

Definition type_b (e : elem) (m : meta) : bool :=
  match dt_parse (e_type e) with Ok t => VmapModel.parsed_eqb t (type_of (mkind m)) | Err _ => false end.
Definition described_b (m : meta) (f : fields) : bool :=
  forallb (fun x => forallb valid_field (fst x) && (nilb (fst x) || existsb (fun e => str_eqb (e_path e) (slashed (fst x))) f)) (paths m) &&
  forallb (fun e => existsb (fun x => negb (nilb (fst x)) && str_eqb (e_path e) (slashed (fst x)) && type_b e (snd x)) (paths m)) f.
Lemma described_b_sound : forall m f, described_b m f = true -> described m f.
Proof.
  intros m f H. apply andb_true_iff in H as (H1 & H2). rewrite forallb_forall in H1, H2. split.
  - intros p m' A. specialize (H1 _ (paths_complete _ _ _ A)). apply andb_true_iff in H1 as (H & _). apply forallb_valid. exact H.
  - intros p m' A N. specialize (H1 _ (paths_complete _ _ _ A)). apply andb_true_iff in H1 as (_ & H). cbn [fst] in H. apply nilb_ne in N. rewrite N in H. cbn [orb] in H.
    apply existsb_exists in H as (e & I & E). apply str_eqb_eq in E. eauto.
  - intros e I. specialize (H2 _ I). apply existsb_exists in H2 as ([p m'] & J & H). cbn [fst snd] in H. rewrite !andb_true_iff in H. destruct H as ((H3 & H4) & H5).
    exists p, m'. split; [apply nilb_ne; apply negb_true_iff; exact H3|]. split; [apply paths_sound; exact J|]. split; [apply str_eqb_eq; exact H4|].
    unfold type_b in H5. destruct (dt_parse (e_type e)) as [t|]; [|discriminate]. apply VmapProofs2.parsed_eqb_eq in H5. congruence.
Qed.

Section Pair.
Variables (old new : fields) (v : Z).
Hypothesis Wn : wf_fields new.
Notation where_ := (VmapProofs4.loc old new v).
Notation moves := (VmapProofs4.moves old new v).
Let origin_is : forall q p b, origin old new v q p b -> where_ q = (p, b).
Proof.
  intros q p b O. destruct (VmapProofs.origin_fun old new v Wn _ _ _ (VmapProofs4.loc_origin old new v Wn q) _ _ O) as (E1 & E2). destruct (where_ q). cbn in *. congruence.
Qed.
Definition same_b : bool := forallb (fun e => let p := e_path e in
  negb (has p (by_path new)) || existsb (fun m => str_eqb (fst m) p) moves || (str_eqb (fst (where_ p)) p && negb (snd (where_ p)))) old.
Lemma same_b_sound : same_b = true -> same_quantity old new v.
Proof.
  intros H p (e & I & <-) N NM. unfold same_b in H. rewrite forallb_forall in H. specialize (H e I). cbv zeta in H. rewrite !orb_true_iff in H.
  destruct H as [[H|H]|H].
  - apply negb_true_iff in H. apply VmapProofs.has_exists in N. congruence.
  - apply existsb_exists in H as ([a b] & J & E). apply str_eqb_eq in E. cbn [fst] in E. subst a. exfalso. apply (NM b). apply (VmapProofs4.moves_spec old new v Wn). exact J.
  - apply andb_true_iff in H as (H1 & H2). apply str_eqb_eq in H1. apply negb_true_iff in H2. pose proof (VmapProofs4.loc_origin old new v Wn (e_path e)) as O. rewrite H1, H2 in O. exact O.
Qed.
Definition inside_b : bool := forallb (fun m => forallb (fun a => forallb (fun b =>
  negb (starts_with (fst m ++ [slash]) (e_path a) && str_eqb (snd m ++ skipn (length (fst m)) (e_path a)) (e_path b)) ||
  match dt_parse (e_type a), dt_parse (e_type b) with Ok x, Ok y => VmapModel.parsed_eqb x y | _, _ => false end) new) old) moves.
Lemma inside_b_sound : inside_b = true -> types_inside old new v.
Proof.
  intros H p q r a b M Ia Ib Ea Eb. unfold inside_b in H. rewrite forallb_forall in H. apply (VmapProofs4.moves_spec old new v Wn) in M. specialize (H _ M).
  rewrite forallb_forall in H. specialize (H a Ia). rewrite forallb_forall in H. specialize (H b Ib). cbn [fst snd] in H. apply orb_true_iff in H as [H|H].
  - exfalso. apply negb_true_iff in H. rewrite Ea, Eb in H.
    assert (X : starts_with (p ++ [slash]) (p ++ slash :: r) = true) by (apply VmapProofs.starts_with_spec; exists r; rewrite <- app_assoc; reflexivity).
    rewrite X, skipn_app, skipn_all, Nat.sub_diag in H. cbn [app skipn andb] in H. rewrite str_eqb_refl in H. discriminate.
  - destruct (dt_parse (e_type a)) as [x|] eqn:Xa; [|discriminate]. destruct (dt_parse (e_type b)) as [y|] eqn:Xb; [|discriminate]. apply VmapProofs2.parsed_eqb_eq in H. subst. exists y. auto.
Qed.

(** what changes *)
Definition special_b (e : elem) : bool :=
  match e_nbc e with
  | Some n => match n_versions n with
              | VmapModel.Versions vs => (v <? last vs 0)%Z && existsb (str_eqb (n_desc n)) (map strs ["repeat_children_first_point"; "repeat_children_first_point_conditional"; "repeat_children_first_point_conditional_sibling";
                  "repeat_children_first_point_conditional_sibling_dynamic"; "remove_last_point_if_open_annular_centreline"]%string)
              | _ => false
              end
  | None => false
  end.
Definition differ_b (a e : elem) : bool := match dt_parse (e_type a), dt_parse (e_type e) with Ok x, Ok y => negb (VmapModel.parsed_eqb x y) | _, _ => true end.
Definition changing : list (str * str) := flat_map (fun e => let p := fst (where_ (e_path e)) in
  if special_b e || existsb (fun a => str_eqb (e_path a) p && differ_b a e) old then [(p, e_path e)] else []) new.
Lemma changing_complete : forall p q, changes_to old new v p q -> In (p, q) changing.
Proof.
  intros p q (e & b & I & E & O & H). apply origin_is in O. subst q. apply in_flat_map. exists e. split; auto. cbv zeta. rewrite O. cbn [fst].
  replace (special_b e || existsb (fun a => str_eqb (e_path a) p && differ_b a e) old) with true; [left; reflexivity|]. symmetry. apply orb_true_iff.
  destruct H as [(n & vs & E1 & E2 & LT & ID)|(a & Ia & Ea & NS)].
  - left. unfold special_b. rewrite E1, E2. apply andb_true_iff. split; [apply Z.ltb_lt; exact LT|]. apply existsb_exists. exists (n_desc n). split; auto. apply str_eqb_refl.
  - right. apply existsb_exists. exists a. split; auto. rewrite Ea, str_eqb_refl. cbn [andb]. unfold differ_b.
    destruct (dt_parse (e_type a)) as [x|] eqn:Xa; [|reflexivity]. destruct (dt_parse (e_type e)) as [y|] eqn:Xb; [|reflexivity].
    apply negb_true_iff. apply not_true_iff_false. intros P. apply VmapProofs2.parsed_eqb_eq in P. subst. apply NS. exists y. auto.
Qed.
End Pair.

(** the paths of a tree *)
Fixpoint stored_paths (n : node) : list (list str) :=
  match n with
  | NLeaf _ => [[]]
  | NStruct fs => [] :: flat_map (fun x => map (cons (fst x)) (stored_paths (snd x))) fs
  | NAoS els => [] :: flat_map stored_paths els
  end.
Lemma stored_paths_complete : forall m n l m' n', node_at m n l m' n' -> In (loc_names l) (stored_paths n).
Proof.
  intros m n l m' n' H. induction H as [m n|nm cs fs c ch l m' n' I E H IH|nm cs els i e l m' n' E H IH].
  - destruct n; cbn; auto.
  - cbn [loc_names stored_paths]. right. apply in_flat_map. exists (mname c, ch). split; [apply alookup_In; exact E|]. apply in_map_iff. exists (loc_names l). auto.
  - cbn [stored_paths]. change (loc_names (Elem i :: l)) with (loc_names l). right. apply in_flat_map. exists e. split; auto. apply nth_error_In in E. exact E.
Qed.
Definition untouched_b (src : node) (ch : list str) : bool :=
  forallb (fun p => forallb (fun ab => nilb (fst ab) || negb (existsb (str_eqb (slashed (fst ab))) ch)) (splits p)) (stored_paths src).
Lemma untouched_b_sound : forall sm src (ch : str -> Prop) l, (forall p, ch p -> In p l) -> untouched_b src l = true -> untouched sm src ch.
Proof.
  intros sm src ch l HL H s PR a b E N C.
  assert (I : In (loc_names s) (stored_paths src)).
  { destruct PR as [(v & m' & _ & X & _)|(k & m' & els & X & _)]; eapply stored_paths_complete; eauto. }
  unfold untouched_b in H. rewrite forallb_forall in H. specialize (H _ I). rewrite E in H. rewrite forallb_forall in H. specialize (H _ (splits_complete a b)). cbn [fst] in H.
  apply nilb_ne in N. rewrite N in H. cbn [orb] in H. apply negb_true_iff in H. apply not_true_iff_false in H. apply H. apply existsb_exists. exists (slashed a). split; [auto|apply str_eqb_refl].
Qed.
