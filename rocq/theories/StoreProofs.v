(** Positions computed by recursion over the metadata are the ones of StoreSpec. *)
From Verif Require Import Base TreeModel TreeSpec ConvSpec VmapModel StoreModel StoreSpec.
From Verif Require PrimModel.

Lemma path_of_snoc : forall rel nm, rel <> [] -> path_of (rel ++ [nm]) = path_of rel ++ "/"%char :: nm.
Proof.
  induction rel as [|h t IH]; intros nm H; [congruence|]. destruct t as [|h2 t].
  - reflexivity.
  - unfold path_of in *. change ((h :: h2 :: t) ++ [nm]) with (h :: ((h2 :: t) ++ [nm])).
    assert (E : forall l : list str, l <> [] -> join_with "/"%char (h :: l) = h ++ "/"%char :: join_with "/"%char l).
    { intros [|a l] X; [congruence|reflexivity]. }
    rewrite !E; [|discriminate|destruct t; discriminate]. rewrite IH by discriminate. now rewrite <- app_assoc.
Qed.
Lemma path_of_nil : forall rel, Forall (fun x => x <> []) rel -> path_of rel = [] -> rel = [].
Proof.
  intros [|h [|h2 t]] F E; auto; inversion F; subst; unfold path_of in E; cbn in E.
  - contradiction.
  - destruct h; discriminate.
Qed.

Definition is_aos (m : meta) : bool := match mkind m with KAoS => true | _ => false end.

Section Transfer.
Variable dynamic : list str -> bool.
Variable xml_tbp : list str -> str.
Variable nbc : option nmap.
Variable mode : Z.
Notation placed := (placed dynamic xml_tbp nbc mode).
Notation position := (position dynamic xml_tbp nbc mode).
Notation skipped := (skipped dynamic nbc mode).
Notation target_of := (target_of nbc).
Notation locate := (locate dynamic xml_tbp nbc mode).
Notation omitted := (omitted dynamic mode).
Notation below := (below dynamic).

(** the recursion's state, for the node with path [names] *)
Definition inv (p : pos) (names rel : list str) : Prop :=
  p_names p = names /\ p_ctx p = path_of rel /\ Forall (fun x => x <> []) rel /\
  p_dyn p = existsb (fun i => dynamic (firstn i names)) (seq 1 (length names)).

Lemma inv_top : inv top [] [].
Proof. repeat split; auto. Qed.

Lemma ctx_path_inv : forall p names rel nm, inv p names rel -> ctx_path p nm = path_of (rel ++ [nm]).
Proof.
  intros p names rel nm [_ [C [F _]]]. unfold ctx_path. rewrite C. destruct (path_of rel) eqn:E.
  - apply path_of_nil in E; auto. subst. reflexivity.
  - rewrite path_of_snoc; [now rewrite E|]. intros ->. discriminate.
Qed.

Lemma existsb_ext_in : forall {A} (f g : A -> bool) l, (forall x, In x l -> f x = g x) -> existsb f l = existsb g l.
Proof. induction l as [|x t IH]; intros H; auto. cbn. rewrite H by (left; auto). rewrite IH; auto. intros; apply H; now right. Qed.

Lemma prefix_snoc : forall names nm,
  existsb (fun i => dynamic (firstn i names)) (seq 1 (length names)) =
  existsb (fun i => dynamic (firstn i (names ++ [nm]))) (seq 1 (length names)).
Proof.
  intros names nm. apply existsb_ext_in. intros i Hi. apply in_seq in Hi.
  f_equal. rewrite firstn_app. replace (i - length names) with 0 by lia. cbn. now rewrite app_nil_r.
Qed.

Lemma inv_inside : forall p names rel nm, inv p names rel -> p_dyn p = inside_dynamic dynamic (names ++ [nm]).
Proof.
  intros p names rel nm [_ [_ [_ D]]]. rewrite D. unfold inside_dynamic. rewrite app_length. cbn [length].
  replace (length names + 1 - 1) with (length names) by lia. apply prefix_snoc.
Qed.

Lemma inv_below : forall p names rel m, inv p names rel -> mname m <> [] ->
  inv (below p m) (names ++ [mname m]) (if is_aos m then [] else rel ++ [mname m]).
Proof.
  intros p names rel m I N. assert (P := ctx_path_inv p names rel (mname m) I). assert (D := inv_inside p names rel (mname m) I).
  destruct I as [A [C [F Dy]]]. unfold StoreModel.below, inv, is_aos. cbn [p_names p_ctx p_dyn]. rewrite A. split; [reflexivity|].
  split; [destruct (mkind m); auto|]. split.
  - destruct (mkind m); auto; apply Forall_app; auto.
  - rewrite app_length. cbn [length]. rewrite seq_app, existsb_app, <- (prefix_snoc names (mname m)). rewrite <- Dy. cbn [seq existsb].
    rewrite orb_false_r, orb_comm. f_equal. f_equal. rewrite firstn_all2; auto. rewrite app_length. cbn. lia.
Qed.

Lemma timebase_inv : forall p names rel m, inv p names rel ->
  timebasepath dynamic xml_tbp p m = own_base dynamic xml_tbp (is_aos m) (names ++ [mname m]) (rel ++ [mname m]).
Proof.
  intros p names rel m I. assert (P := ctx_path_inv p names rel (mname m) I). assert (D := inv_inside p names rel (mname m) I).
  destruct I as [A _]. unfold timebasepath, own_base, is_aos. rewrite A, P, D.
  destruct (mkind m); destruct (dynamic (names ++ [mname m])); destruct (inside_dynamic dynamic (names ++ [mname m])); reflexivity.
Qed.

Lemma homog_eq : forall c t : str,
  (c, match t with [] => [] | _ => if (mode =? HOMOGENEOUS)%Z then strs "/time" else t end) = homogenised mode (c, t).
Proof. intros c [|a t]; reflexivity. Qed.

Lemma locate_spec : forall p names rel m, inv p names rel ->
  let ns := names ++ [mname m] in let rl := rel ++ [mname m] in
  match locate p m with
  | Ok (Some pl) => placed (is_aos m) ns rl pl /\ target_of ns <> Gone
  | Ok None => target_of ns = Gone
  | Err _ => target_of ns = Bad
  end.
Proof.
  intros p names rel m I ns rl. assert (P := ctx_path_inv p names rel (mname m) I). assert (T := timebase_inv p names rel m I).
  destruct I as [A _]. unfold StoreModel.locate. rewrite A, P, T. fold ns rl.
  assert (S : target_of ns = Same -> match (do r <- Ok (Some (path_of rl, own_base dynamic xml_tbp (is_aos m) ns rl));
     Ok (match r with Some (c, t) => Some (c, match t with [] => [] | _ => if (mode =? HOMOGENEOUS)%Z then strs "/time" else t end) | None => None end) : result exn _) with
     | Ok (Some pl) => placed (is_aos m) ns rl pl /\ target_of ns <> Gone | Ok None => target_of ns = Gone | Err _ => target_of ns = Bad end).
  { intros E. cbn [rbind]. rewrite homog_eq. split; [now constructor|congruence]. }
  unfold StoreSpec.target_of in *. destruct nbc as [mp|]; [|apply S; reflexivity].
  destruct (alookup (path_of ns) (m_path mp)) as [[q|]|] eqn:E1.
  - destruct (alookup (path_of ns) (m_ctx mp)) as [c|] eqn:E2; [destruct (alookup (path_of ns) (m_tbp mp)) as [t|] eqn:E3|]; cbn [rbind]; auto.
    rewrite homog_eq. split; [|discriminate]. apply pl_at. unfold StoreSpec.target_of. now rewrite E1, E2, E3.
  - reflexivity.
  - destruct (has (path_of ns) (m_type mp)); [reflexivity|]. apply S. reflexivity.
Qed.

Lemma omitted_spec : forall p names rel m, inv p names rel ->
  if omitted p m then skipped (names ++ [mname m]) else ~ (mode = 2%Z /\ dynamic (names ++ [mname m]) = true).
Proof.
  intros p names rel m [A _]. unfold StoreModel.omitted, StoreSpec.skipped. rewrite A. unfold INDEPENDENT.
  destruct (Z.eqb_spec mode 2); destruct (dynamic (names ++ [mname m])) eqn:E; cbn; auto; intros [? ?]; congruence.
Qed.

(** ** Positions *)
Lemma placed_fun : forall aos names rel p q, placed aos names rel p -> placed aos names rel q -> p = q.
Proof. intros aos names rel p q H1 H2. inversion H1; inversion H2; subst; congruence. Qed.
Lemma position_fun : forall aos l names rel k k', position aos names rel l k -> position aos names rel l k' -> k = k'.
Proof.
  induction l as [|st l IH]; intros names rel k k' H1 H2; inversion H1; inversion H2; subst; try congruence.
  - f_equal. eapply placed_fun; eauto.
  - match goal with H : Child _ = Child _ |- _ => inversion H; subst | _ => idtac end. eapply IH; eauto.
  - match goal with H : placed true names rel ?a, H' : placed true names rel ?b |- _ => assert (a = b) by (eapply placed_fun; eauto) end.
    match goal with H : position aos names [] l ?a, H' : position aos names [] l ?b |- _ => assert (a = b) by (eapply IH; eauto) end. congruence.
Qed.
End Transfer.
