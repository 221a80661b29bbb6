(** The invariants hold after any history. *)
From Coq Require Import Permutation.
From Verif Require Import Base TreeModel TreeSpec TreeProofs TreeProofs4 PathModel HeapModel HeapSpec HeapProofs HeapProofs2 HeapProofs3 HeapProofs4
  HeapProofs5 HeapProofs6 HeapProofs7 HeapProofs8.
From Verif Require PathProofs3.

(** ** Shapes *)
Lemma shaped_objs : forall h h', h_objs h' = h_objs h -> shaped h -> shaped h'.
Proof. intros h h' E S x ob G. apply (S x). unfold get in *. now rewrite <- E. Qed.
Lemma shaped_alloc : forall h ob, shaped h -> wf_meta (o_meta ob) -> keys_good (o_meta ob) (o_body ob) -> shaped (fst (alloc h ob)).
Proof. intros h ob S W K x xo G. rewrite get_alloc in G. destruct (x =? _); [inversion G; subst; auto|eauto]. Qed.
Lemma shaped_set_parent : forall h v p, shaped h -> shaped (set_parent h v p).
Proof.
  intros h v p S x xo G. rewrite get_set_parent in G. destruct (Nat.eqb_spec v x) as [->|]; [|eauto]. destruct (get h x) as [o|] eqn:Gx; inversion G; subst. exact (S x o Gx).
Qed.
Lemma shaped_set_body : forall h o b, shaped h -> (forall ob, get h o = Some ob -> keys_good (o_meta ob) b) -> shaped (set_body h o b).
Proof.
  intros h o b S K x xo G. rewrite get_set_body in G. destruct (Nat.eqb_spec o x) as [->|]; [|eauto]. destruct (get h x) as [ob|] eqn:Gx; inversion G; subst. simpl.
  split; [apply (S x ob Gx)|auto].
Qed.
Lemma shaped_leafless : forall h o b, shaped h -> (forall fs, b <> BStruct fs) -> shaped (set_body h o b).
Proof. intros h o b S K. apply shaped_set_body; auto. intros ob G. destruct b; simpl; auto. elim (K fs); auto. Qed.
Lemma shaped_bodies : forall h h', (forall y, get h' y = get h y \/
     exists ob b, get h y = Some ob /\ o_body ob = BPrim None /\ get h' y = Some (with_body (BPrim (Some (SBuf b))) ob)) -> shaped h -> shaped h'.
Proof.
  intros h h' H S x xo G. destruct (H x) as [E|(ob & b & Gx & B & E)]; rewrite E in G; [eauto|]. inversion G; subst. simpl. split; [apply (S x ob Gx)|auto].
Qed.
Lemma new_body_good : forall m m', keys_good m (new_body m').
Proof. intros m m'. unfold new_body. destruct (mkind m'); simpl; auto. split; [constructor|intros k []]. Qed.
Lemma child_wf : forall m k c, wf_meta m -> child_meta k (mchildren m) = Some c -> wf_meta c.
Proof. intros m k c W C. apply child_meta_Some in C as (C & _). inversion W; subst; simpl in *; auto. Qed.
Lemma good_aset : forall m fs k x, wf_meta m -> keys_good m (BStruct fs) -> (exists c, child_meta k (mchildren m) = Some c) ->
  keys_good m (BStruct (aset k x fs)).
Proof.
  intros m fs k x W (K1 & K2) H. split; [intros _; apply nodup_aset; auto|]. intros k' I. apply akeys_aset_In in I as [->|I]; auto.
Qed.
Lemma shaped_getattr : forall h o k, shaped h -> shaped (fst (getattr h o k)).
Proof.
  intros h o k S. destruct (getattr h o k) as (h', r) eqn:E. simpl.
  apply getattr_cases in E as [(-> & _)|(ob & fs & cm & G & B & A & C & -> & ->)]; auto.
  destruct (S o ob G) as (W & K). rewrite B in K. apply shaped_set_body.
  - apply shaped_alloc; auto; simpl; [eapply child_wf; eauto|apply new_body_good].
  - intros ob' G'. rewrite get_alloc in G'. pose proof (get_lt _ _ _ G). destruct (Nat.eqb_spec o (nobj h)); [lia|].
    rewrite G in G'. inversion G'; subst ob'. apply good_aset; eauto.
Qed.
Lemma shaped_value : forall h p, shaped h -> shaped (fst (prim_value h p)).
Proof.
  intros h p. apply shaped_bodies. intros y. destruct (prim_value h p) as (h1, r) eqn:E. simpl.
  destruct (objs_value _ _ _ _ E y) as [->|(-> & ob & b & X)]; eauto.
Qed.
Definition keep_shape (h h' : heap) : Prop := shaped h -> shaped h'.
Lemma shaped_goto : forall p h from fr, shaped h -> shaped (fst (goto p h from fr)).
Proof.
  intros p h from fr S. destruct (goto p h from fr) as (h', r) eqn:E. simpl.
  assert (C : closed_under keep_shape (fun _ _ => True)).
  { constructor; auto.
    - intros h1 e k h2 r1 _ E1. split; auto. pose proof (shaped_getattr h1 e k) as X. rewrite E1 in X. exact X.
    - intros h1 q h2 r1 _ E1. pose proof (shaped_value h1 q) as X. rewrite E1 in X. exact X. }
  assert (U : up_closed (fun (_ : heap) (_ : oid) => True)) by (intros h1 x y _ _; exact I).
  refine (proj1 (goto_up keep_shape _ _ _ C U p h from fr h' r I E) S); unfold keep_shape; auto.
Qed.
Lemma shaped_append : forall vs h a, shaped h -> shaped (fst (append h a vs)).
Proof.
  induction vs as [|v vs IH]; intros h a N; auto. cbn [append]. destruct (get h a) as [ob|]; auto. destruct (o_body ob); auto.
  apply IH. apply shaped_leafless; [now apply shaped_set_parent|discriminate].
Qed.
Lemma shaped_alloc_elems : forall k h a p m, shaped h -> wf_meta m -> shaped (fst (alloc_elems h a p m k)).
Proof.
  induction k as [|k IH]; intros h a p m S W; auto. cbn [alloc_elems].
  destruct (alloc h (new_elem a p m)) as (h1, x) eqn:A. assert (h1 = fst (alloc h (new_elem a p m))) as -> by now rewrite A.
  specialize (IH (fst (alloc h (new_elem a p m))) a p m). destruct (alloc_elems _ a p m k) as (h2, l). simpl in *. apply IH; auto.
  apply (shaped_alloc h (new_elem a p m)); auto. simpl. split; [constructor|intros k0 []].
Qed.
Lemma shaped_resize : forall h a n keep, shaped h -> shaped (fst (resize h a n keep)).
Proof.
  intros h a n keep S. unfold resize. destruct (n <? 0)%Z; auto. destruct (get h a) as [ob|] eqn:G; auto.
  destruct (o_body ob); auto. set (els0 := if keep then els else []). destruct (length els0 <? Z.to_nat n).
  - pose proof (shaped_alloc_elems (Z.to_nat n - length els0) h a (o_path ob) (o_meta ob) S (proj1 (S a ob G))) as X.
    destruct (alloc_elems _ _ _ _ _) as (h1, new). simpl in *. apply shaped_leafless; auto; discriminate.
  - destruct (_ <? _); simpl; apply shaped_leafless; auto; discriminate.
Qed.
Lemma shaped_setitem : forall h a i v, shaped h -> shaped (fst (aos_setitem h a i v)).
Proof.
  intros h a i v N. unfold aos_setitem. destruct (get h a); auto. destruct (o_body o); auto. destruct (py_index _ _); auto.
  simpl. apply shaped_leafless; auto; discriminate.
Qed.
Lemma shaped_getitem : forall h o key, shaped h -> shaped (fst (struct_getitem h o key)).
Proof.
  intros h o key S. unfold struct_getitem. destruct (get h o) as [ob|]; auto.
  destruct (child_meta key _); [now apply shaped_getattr|]. destruct (parse key) as [(ps, ix)|]; auto.
  destruct ps as [|a [|b ps]]; try (apply shaped_goto; auto; fail). destruct ix as [|[| | | |] [|]]; try (apply shaped_goto; auto; fail). auto.
Qed.

(** the parser never gives more names than indices *)
Lemma parse_nonempty : forall key n ps ix, parse key = Ok (n :: ps, ix) -> exists i ix', ix = i :: ix'.
Proof.
  intros key n ps ix E. apply PathProofs3.parse_iff in E. apply PathProofs3.parses_wf in E. apply PathProofs3.wf_path_length in E.
  destruct ix; [discriminate|eauto].
Qed.

Section WithCast.
Variable cast : dtype -> nat -> value -> result exn value.
Lemma shaped_prim_set : forall h p a, shaped h -> shaped (fst (prim_set cast h p a)).
Proof.
  intros h p a N. unfold prim_set. destruct (get h p) as [ob|]; auto. destruct (o_body ob); auto. destruct (mkind _); auto.
  destruct (setter_value cast h dt ndim a) as (h1, r) eqn:E. assert (N1 : shaped h1).
  { eapply shaped_bodies; [|exact N]. intros y. eapply setter_objs; eauto. }
  destruct r; auto. simpl. apply shaped_leafless; auto; discriminate.
Qed.
Lemma shaped_setattr : forall h o key a, shaped h -> shaped (fst (setattr cast h o key a)).
Proof.
  intros h o key a S. unfold setattr. pose proof (shaped_getattr h o key S) as S1. destruct (getattr h o key) as (h1, r) eqn:E. simpl in S1.
  destruct r as [x|e]; auto. destruct (get h1 x) as [at_|] eqn:Gx; auto.
  destruct (getattr_slot _ _ _ _ _ E) as (fs & Bo & Hin). apply get_body_of in Bo as (oo & Go & Bo).
  assert (Rep : forall v, shaped (set_parent (set_body h1 o (BStruct (aset key v fs))) v o)).
  { intros v. apply shaped_set_parent. apply shaped_set_body; auto. intros ob Gob. rewrite Go in Gob. inversion Gob; subst ob.
    destruct (S1 o oo Go) as (W & K). rewrite Bo in K. apply good_aset; auto. apply (proj2 K). apply in_map_iff. exists (key, x). auto. }
  destruct (o_body at_) eqn:Ba.
  - destruct a as [|b|v]; auto. destruct (get h1 v) as [vo|] eqn:Gv; auto. destruct (o_body vo) eqn:Bv; auto.
    destruct (strs_eqb _ _); auto. rewrite Go, Bo. apply Rep.
  - destruct a as [|b|v]; auto. destruct (get h1 v) as [vo|] eqn:Gv; auto. destruct (o_body vo) eqn:Bv; auto.
    destruct (strs_eqb _ _); auto. rewrite Go, Bo. apply Rep.
  - now apply shaped_prim_set.
Qed.
Lemma shaped_struct_setitem : forall h o key a, shaped h -> shaped (fst (struct_setitem cast h o key a)).
Proof.
  intros h o key a S. unfold struct_setitem. destruct (get h o) as [ob|]; auto.
  destruct (child_meta key _); [now apply shaped_setattr|]. destruct (parse key) as [(ps, ix)|]; auto.
  assert (X : shaped (fst (let (h1, r) := goto (IPath ps ix) h o false in
                match r with
                | Err e => (h1, Err e)
                | Ok x =>
                  match get h1 x with
                  | None => (h1, Err EAttribute)
                  | Some xo =>
                    match o_body xo with
                    | BPrim _ => prim_set cast h1 x a
                    | _ => match o_parent xo with
                           | None => (h1, Err EType)
                           | Some p => match get h1 p with
                                       | Some po => match o_body po with
                                                    | BAoS _ => (h1, Err EValue)
                                                    | BStruct _ => match ps with
                                                                   | [] => (h1, Err EIndex)
                                                                   | _ => setattr cast h1 p (last ps []) a
                                                                   end
                                                    | BPrim _ => (h1, Err EType)
                                                    end
                                       | None => (h1, Err EType)
                                       end
                           end
                    end
                  end
                end))).
  { pose proof (shaped_goto (IPath ps ix) h o false S) as S1. destruct (goto (IPath ps ix) h o false) as (h1, r). simpl in S1.
    destruct r as [x|e]; auto. destruct (get h1 x) as [xo|]; auto. destruct (o_body xo).
    1,2: destruct (o_parent xo) as [p|]; auto; destruct (get h1 p) as [po|]; auto; destruct (o_body po); auto; destruct ps; auto; now apply shaped_setattr.
    now apply shaped_prim_set. }
  destruct ps as [|n [|n' ps]]; try exact X. destruct ix as [|i [|i' ix]]; try exact X; destruct i; try exact X. auto.
Qed.
Lemma inv_struct_setitem : forall h o key a, inv h -> insertable h o a -> inv (fst (struct_setitem cast h o key a)).
Proof.
  intros h o key a Iv Hi. unfold struct_setitem. destruct (get h o) as [ob|]; auto.
  destruct (child_meta key _); [now apply inv_setattr|]. destruct (parse key) as [(ps, ix)|] eqn:P; auto.
  destruct ps as [|n ps].
  - (* empty path: the node itself *)
    pose proof (step_goto (IPath [] ix) h o false) as St.
    destruct (goto (IPath [] ix) h o false) as (h1, r) eqn:E. simpl in St. destruct (St Iv) as (I1 & G1).
    destruct r as [x|e]; auto. destruct (get h1 x) as [xo|]; auto. destruct (o_body xo).
    1,2: destruct (o_parent xo) as [p|]; auto; destruct (get h1 p) as [po|]; auto; destruct (o_body po); auto.
    now apply inv_prim_set.
  - destruct (parse_nonempty _ _ _ _ P) as (i & ix' & ->). pose proof (inv_goto_set cast h o a n ps i ix' Iv Hi) as X.
    destruct ps as [|n' ps]; [|exact X]. destruct i; try exact X. destruct ix'; [auto|exact X].
Qed.

Lemma copy_inv : forall f h x h' me' y, inv h -> shaped h -> deepcopy f h empty_memo x = Some (h', me', y) -> inv h' /\ shaped h'.
Proof.
  intros f h x h' me' y (T & N) S E.
  assert (Hx : x < nobj h).
  { destruct f; simpl in E; [discriminate|]. destruct (get h x) as [ob|] eqn:G; [eapply get_lt; eauto|discriminate]. }
  destruct (deepcopy_tidy h T N S f h empty_memo x h' me' y T N (le_n _) (fun z _ => eq_refl) Hx) as (F & _ & _ & _); auto.
  { intros k v []. }
  split; [split; [apply (f_tidy _ _ _ _ _ _ F)|apply (f_named _ _ _ _ _ _ F)]|].
  assert (M : memo_in (nobj h) (nbuf h) h empty_memo) by (split; intros v (k & [])).
  destruct (deepcopy_ext _ _ _ _ _ _ _ _ _ (le_n _) (le_n _) M E) as (X & _).
  intros z zo G. destruct (Nat.lt_ge_cases z (nobj h)) as [L|L].
  - rewrite (e_old _ _ _ _ _ _ X) in G; eauto.
  - destruct (e_new _ _ _ _ _ _ X z zo L G) as ((w & wo & Gw & _ & Em & _) & _ & _ & K). split; auto. rewrite Em. apply (S w wo Gw).
Qed.

Theorem exec_inv : forall h o, inv h -> shaped h -> op_ok h o -> inv (fst (exec cast h o)) /\ shaped (fst (exec cast h o)).
Proof.
  intros h o Iv Sh Ho. destruct o as [x name|x key a|x i|x i v|x vs|x n keep|p|p a|b v|v|m|x key|x key a|f x]; cbn [exec];
    try (destruct x as [x|bx]; [|split; auto]); try (destruct p as [p|bp]; [|split; auto]); try (destruct b as [xb|b]; [split; auto|]).
  - simpl. split; [apply step_getattr; auto|now apply shaped_getattr].
  - simpl. split; [apply inv_setattr; auto|now apply shaped_setattr]. destruct a as [w|[v|b]]; simpl; auto.
  - simpl. rewrite fst_getitem. auto.
  - destruct v as [v|b]; [|auto]. simpl in *. destruct Ho as (D & R & St & P). split; [split|].
    + apply tidy_setitem; auto. apply Iv.
    + apply named_setitem. apply Iv.
    + now apply shaped_setitem.
  - simpl in Ho. destruct Ho as (Nd & Hv). destruct (oids vs) as [l|] eqn:El; [|auto]. simpl.
    assert (Hl : vs = map HO l).
    { clear - El. revert l El. induction vs as [|[v|b] vs IH]; simpl; intros l El; inversion El; auto.
      destruct (oids vs) as [l'|]; simpl in *; inversion El. subst. simpl. f_equal. auto. }
    subst vs. split; [split|].
    + apply tidy_append; [apply Iv|eapply NoDup_map_inv; eauto|]. intros v I. apply Hv. now apply in_map.
    + apply named_append. apply Iv.
    + now apply shaped_append.
  - simpl. destruct Iv as (T & N). split; [split; [apply tidy_resize|apply named_resize]; auto|now apply shaped_resize].
  - pose proof (step_value h p) as X. pose proof (shaped_value h p Sh) as Y. destruct (prim_value h p) as (h1, r). simpl in *. split; auto. apply X; auto.
  - simpl. split; [now apply inv_prim_set|now apply shaped_prim_set].
  - simpl. destruct Iv as (T & N). split; [split; [eapply tidy_objs; [|exact T]|eapply named_objs; [|exact N]]|eapply shaped_objs; [|exact Sh]]; reflexivity.
  - simpl. destruct Iv as (T & N). split; [split; [eapply tidy_objs; [|exact T]|eapply named_objs; [|exact N]]|eapply shaped_objs; [|exact Sh]]; reflexivity.
  - destruct Iv as (T & N). assert (E : forall s x, ~ in_body (BStruct []) s x) by (intros [k|i] x; simpl; auto).
    split; [split|].
    + apply (tidy_alloc h (new_top m)); auto.
    + apply (named_alloc h (new_top m)); auto. simpl. congruence.
    + apply (shaped_alloc h (new_top m)); auto. simpl. split; [constructor|intros k []].
  - simpl. split; [apply step_struct_getitem; auto|now apply shaped_getitem].
  - simpl. split; [apply inv_struct_setitem; auto|now apply shaped_struct_setitem]. destruct a as [w|[v|b]]; simpl; auto.
  - destruct (deepcopy f h empty_memo x) as [((h1, me), y)|] eqn:E; [|auto]. simpl. eapply copy_inv; eauto.
Qed.

Theorem history_inv : forall h, history cast h -> inv h /\ shaped h.
Proof.
  intros h H. induction H as [|h o _ (Iv & Sh) Ho _].
  - assert (G : forall x ob, get {| h_objs := []; h_bufs := [] |} x = Some ob -> False) by (intros [|x] ob; discriminate).
    assert (Sl : forall c s x, slot {| h_objs := []; h_bufs := [] |} c s x -> False) by (intros c s x Hs; inversion Hs; subst; eauto).
    split; [split|].
    + constructor; try (intros; exfalso; eauto; fail). intros c x (s & Hs). elim (Sl _ _ _ Hs).
    + constructor; intros; exfalso; eauto.
    + intros x ob Gx. elim (G _ _ Gx).
  - apply exec_inv; auto.
Qed.
End WithCast.
