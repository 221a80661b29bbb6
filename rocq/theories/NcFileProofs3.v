(** The eager reader: success, and what is read from a whole file. *)
From Verif Require Import Base TreeModel TreeSpec TreeProofs ValProofs StoreProofs2 NcMetaModel NcMetaSpec NcMetaProofs NcMetaProofs2 NcMetaProofs3 NcMetaProofs4 NcFileModel NcFileProofs NcFileProofs2.
From Verif Require HashModel HashProofs2 HashProofs3.
From Coq Require Import Lia Permutation.

Section Progress.
Variable r : ncmeta.
Variable g : group.
Variable h : bool.

(** indices of the nodes with path names ++ p *)
Inductive visited (vs : list ncvar) : list meta -> path -> list nat -> path -> list nat -> Prop :=
| vt_here : forall cs names idx nm, visited vs cs names idx [nm] idx
| vt_struct : forall cs names idx nm p d idx', List.find (fun c => str_eqb (mname c) nm) cs = Some d -> mkind d = KStruct ->
    visited vs (mchildren d) (names ++ [nm]) idx p idx' -> visited vs cs names idx (nm :: p) idx'
| vt_aos : forall cs names idx nm p d i idx', List.find (fun c => str_eqb (mname c) nm) cs = Some d -> mkind d = KAoS ->
    i < size_at r g h vs (names ++ [nm]) idx -> visited vs (mchildren d) (names ++ [nm]) (idx ++ [i]) p idx' -> visited vs cs names idx (nm :: p) idx'.

Lemma map_index_total : forall A (f : nat -> A -> result fexn A) l i, (forall j x, nth_error l j = Some x -> exists y, f (i + j) x = Ok y) -> exists l', map_index f i l = Ok l'.
Proof.
  induction l as [|a l IH]; intros i H; cbn [map_index]; [eauto|]. destruct (H 0 a eq_refl) as [y Y]. rewrite Nat.add_0_r in Y. rewrite Y. cbn [rbind].
  destruct (IH (S i)) as [t T]; [|rewrite T; cbn; eauto]. intros j x Q. destruct (H (S j) x Q) as [z Z]. exists z. rewrite <- Z. f_equal. lia.
Qed.

Lemma update_total : forall vs f p cs fs idx names c0, NoDup (map mname cs) -> (forall c, In c cs -> wf_meta c) -> p <> [] ->
  meta_at (Meta [] KStruct cs) p = Some c0 -> (forall c, In c cs -> same c (field c fs) (den r g h vs c (names ++ [mname c]) idx)) ->
  (forall idx' n, visited vs cs names idx p idx' -> exists x, f idx' c0 n = Ok x) ->
  exists fs', update_at cs fs p idx FKey f = Ok fs'.
Proof.
  intros vs f. induction p as [|nm p IH]; intros cs fs idx names c0 ND WC NE M S OK; [congruence|]. cbn [update_at]. cbn [meta_at mchildren] in M.
  destruct (List.find (fun d => str_eqb (mname d) nm) cs) as [d|] eqn:Fd; [|discriminate].
  assert (Hd : In d cs /\ mname d = nm) by (apply find_some in Fd; destruct Fd as [F1 F2]; apply str_eqb_eq in F2; auto). destruct Hd as [Id Nd]. subst nm. fold (field d fs).
  pose proof (S d Id) as Sd. pose proof (WC d Id) as Wd. destruct p as [|nm2 p].
  - cbn [meta_at] in M. inversion M; subst c0. destruct (OK idx (field d fs)) as [x X]; [constructor|]. rewrite X. cbn. eauto.
  - destruct d as [dn dk dc]. cbn [mname mchildren] in *. assert (MB : meta_at (Meta [] KStruct dc) (nm2 :: p) = Some c0) by exact M. inversion Wd as [? ? ? ND' WC' LF]; subst. destruct dk as [| |dt nd].
    + destruct (field (Meta dn KStruct dc) fs) as [fsd|els|lv] eqn:Fi; [|inversion Sd|inversion Sd].
      assert (SF : forall c, In c dc -> same c (field c fsd) (den r g h vs c ((names ++ [dn]) ++ [mname c]) idx)).
      { inversion Sd as [|? ? fa fb SF|]; subst. intros c1 I1. rewrite <- (den_field r g h vs dc (names ++ [dn]) idx c1); auto. }
      destruct (IH dc fsd idx (names ++ [dn]) c0) as [fs2 U]; auto; [discriminate| |].
      * intros idx' n V. apply OK. eapply vt_struct; eauto.
      * rewrite U. cbn. eauto.
    + destruct (field (Meta dn KAoS dc) fs) as [fsd|els|lv] eqn:Fi; [inversion Sd| |inversion Sd].
      cbn [den] in Sd. inversion Sd as [| |? ? ea eb LE FE]; subst. rewrite map_length, seq_length in LE.
      destruct (map_index_total node (fun i e => do fs'' <- update_at dc (node_fields e) (nm2 :: p) (idx ++ [i]) FKey f; Ok (NStruct fs'')) els 0) as [els' E].
      * intros j x X. cbn [Nat.add]. assert (LJ : j < length els) by (apply nth_error_Some; congruence).
        assert (SX : same (Meta dn KStruct dc) x (NStruct (den_fields r g h vs dc (names ++ [dn]) (idx ++ [j])))).
        { apply (FE j); auto. rewrite nth_error_map, seq_nth_error by lia. reflexivity. }
        inversion SX as [|? ? fx0 ? SF|]; subst. destruct (IH dc fx0 (idx ++ [j]) (names ++ [dn]) c0) as [fs2 U]; auto; [discriminate| | |].
        { intros c1 I1. rewrite <- (den_field r g h vs dc (names ++ [dn]) (idx ++ [j]) c1); auto. }
        { intros idx' n V. apply OK. eapply vt_aos; eauto. lia. }
        cbn [node_fields]. rewrite U. cbn. eauto.
      * rewrite E. cbn. eauto.
    + rewrite (LF _ _ eq_refl) in MB. discriminate.
Qed.
End Progress.

(** * The whole file *)
Lemma str_leb_app : forall a b, HashModel.str_leb a (a ++ b) = true.
Proof. induction a as [|x a IH]; intros b; cbn; auto. rewrite (proj2 (Ascii.eqb_eq x x) eq_refl). apply IH. Qed.
Lemma dotted_app : forall p t, p <> [] -> t <> [] -> dotted (p ++ t) = dotted p ++ "."%char :: dotted t.
Proof.
  unfold dotted. induction p as [|x p IH]; intros t NP NT; [congruence|]. destruct p as [|y p].
  - cbn [app]. destruct t; [congruence|]. reflexivity.
  - change ((x :: y :: p) ++ t) with (x :: (y :: p) ++ t). change (join_with "."%char (x :: y :: p)) with (x ++ "."%char :: join_with "."%char (y :: p)).
    assert (E : join_with "."%char (x :: (y :: p) ++ t) = x ++ "."%char :: join_with "."%char ((y :: p) ++ t)) by reflexivity. rewrite E, IH by (auto; discriminate). now rewrite <- app_assoc.
Qed.
Lemma dotted_split : forall s, dotted (split_on "."%char s) = s. Proof. intros. apply join_split. Qed.

Section Whole.
Variable m : meta.
Variable r : ncmeta.
Variable g : group.
Hypothesis W : wf_meta m.
Hypothesis K : mkind m = KStruct.
Hypothesis CL : clean m.
Variable h : bool.
Hypothesis ND : NoDup (map v_name (g_vars g)).

Lemma sorted_perm : Permutation (sorted_vars g) (g_vars g).
Proof.
  unfold sorted_vars. rewrite (HashProofs2.isort_perm (map (fun v => (v_name v, v)) (g_vars g))). rewrite map_map. cbn. now rewrite map_id.
Qed.
Lemma sorted_order : sorted_by (fun a b => HashModel.str_leb (v_name a) (v_name b) = true) (sorted_vars g).
Proof.
  unfold sorted_vars. pose proof (HashProofs3.isort_sorted (map (fun v => (v_name v, v)) (g_vars g))) as S.
  assert (N : forall x, In x (HashModel.isort (map (fun v => (v_name v, v)) (g_vars g))) -> fst x = v_name (snd x)).
  { intros x I. apply (proj1 (HashProofs2.in_isort x (map (fun v => (v_name v, v)) (g_vars g)))) in I. apply in_map_iff in I. destruct I as (v & <- & _). reflexivity. }
  induction S as [|x l R S IH]; cbn [map]; constructor.
  - intros y I. apply in_map_iff in I. destruct I as (z & <- & I). specialize (R z I). unfold HashProofs3.kle in R. rewrite <- !N; [exact R|now right|now left].
  - apply IH. intros y I. apply N. now right.
Qed.
Lemma sorted_nodup : NoDup (map v_name (sorted_vars g)).
Proof. eapply Permutation_NoDup; [|exact ND]. apply Permutation_map. symmetry. apply sorted_perm. Qed.
Lemma in_vars_sorted : forall nm, in_vars (sorted_vars g) nm = in_vars (g_vars g) nm.
Proof.
  intros nm. destruct (in_vars (g_vars g) nm) as [v|] eqn:E.
  - apply in_vars_some in E. destruct E as [I <-]. destruct (in_vars (sorted_vars g) (v_name v)) as [w|] eqn:E2.
    + apply in_vars_some in E2. destruct E2 as [I2 E2]. f_equal. apply (Permutation_in _ sorted_perm) in I2. eapply nodup_map_inj; eauto.
    + apply in_vars_none in E2. exfalso. apply E2. apply List.in_map. apply (Permutation_in _ (Permutation_sym sorted_perm)). exact I.
  - apply in_vars_none in E. apply in_vars_none. intros Q. apply E. apply in_map_iff in Q. destruct Q as (v & <- & I). apply List.in_map. now apply (Permutation_in _ sorted_perm).
Qed.

(** in the order of reading, an array of structures comes before what is inside *)
Lemma late : forall done v rest t, sorted_vars g = done ++ v :: rest -> t <> [] -> in_vars done (dotted (split_on "."%char (v_name v) ++ t)) = None.
Proof.
  intros done v rest t E NT. apply in_vars_none. intros Q. apply in_map_iff in Q. destruct Q as (w & EW & I).
  rewrite dotted_app, dotted_split in EW by (auto; apply split_on_nonnil).
  pose proof sorted_order as S. pose proof sorted_nodup as N. rewrite E in S, N.
  assert (LE : HashModel.str_leb (v_name w) (v_name v) = true).
  { clear - S I. induction done as [|x done IH]; [destruct I|]. cbn in S. inversion S as [|? ? R S']; subst. destruct I as [->|I]; [|auto]. apply R. apply in_or_app. right. now left. }
  assert (EQ : v_name w = v_name v) by (apply HashProofs3.str_leb_antisym; auto; rewrite EW; apply str_leb_app).
  rewrite map_app in N. apply NoDup_remove_2 in N. apply N. apply in_or_app. left. rewrite <- EQ. now apply List.in_map.
Qed.

Lemma clean_root : forall c, In c (mchildren m) -> nodot (mname c) /\ clean c.
Proof. inversion CL; subst; auto. Qed.
Lemma meta_at_root : forall p, p <> [] -> meta_at m p = meta_at (Meta [] KStruct (mchildren m)) p.
Proof. intros [|nm p] N; [congruence|reflexivity]. Qed.

Definition reads (vs : list ncvar) (fs : fields) : Prop := forall c, In c (mchildren m) -> same c (field c fs) (den r g h vs c [mname c] []).
Lemma reads_nil : reads [] [].
Proof. intros c I. change (field c []) with (new_node c). apply den_empty; auto. inversion W; subst; auto. Qed.

Lemma read_var_step : forall done v rest fs fs', sorted_vars g = done ++ v :: rest -> reads done fs -> read_var m r g h v fs = Ok fs' -> reads (done ++ [v]) fs'.
Proof.
  intros done v rest fs fs' E R H. unfold read_var, var_meta in H. set (P := split_on "."%char (v_name v)) in *. destruct (meta_at m P) as [c0|] eqn:M; [|discriminate]. cbn [option_map] in H.
  assert (NP : P <> []) by apply split_on_nonnil.
  assert (WM : NoDup (map mname (mchildren m)) /\ forall c, In c (mchildren m) -> wf_meta c) by (inversion W; subst; auto). destruct WM as [ND1 WC].
  assert (NEW : ~ In (v_name v) (map v_name done)).
  { pose proof sorted_nodup as N. rewrite E, map_app in N. apply NoDup_remove_2 in N. intros Q. apply N. apply in_or_app. now left. }
  assert (ST : mkind c0 = KStruct \/ mkind c0 <> KStruct) by (destruct (mkind c0); [now left|right; discriminate|right; discriminate]).
  destruct ST as [ST|ST].
  - rewrite ST in H. inversion H; subst fs'. intros c I. rewrite (den_other r g h done v P eq_refl); auto; [apply clean_root; auto|discriminate|constructor; [apply clean_root; auto|constructor]|].
    intros t c' M' K' Q. cbn [app] in Q. assert (X : meta_at m (mname c :: t) = Some c') by (cbn [meta_at]; rewrite find_name; auto). rewrite Q, M in X. inversion X; subst. congruence.
  - assert (U : update_at (mchildren m) fs P [] FKey (read_node r g h v P) = Ok fs') by (destruct (mkind c0); [congruence|exact H|exact H]).
    intros c I. apply (update_den r g h done v P eq_refl NEW P (mchildren m) fs [] [] fs' c0); auto.
    + apply clean_root.
    + reflexivity.
    + rewrite <- meta_at_root; auto.
    + intros _ t NT. unfold P. eapply late; eauto.
Qed.
Lemma read_vars_spec : forall rest done fs fs', sorted_vars g = done ++ rest -> reads done fs -> read_vars m r g h rest fs = Ok fs' -> reads (sorted_vars g) fs'.
Proof.
  induction rest as [|v rest IH]; intros done fs fs' E R H; cbn [read_vars] in H.
  - inversion H; subst. rewrite E, app_nil_r. exact R.
  - destruct (read_var m r g h v fs) as [fs1|e] eqn:V; [|discriminate]. cbn [rbind] in H. eapply (IH (done ++ [v])); eauto.
    + rewrite <- app_assoc. exact E.
    + eapply read_var_step; eauto.
Qed.

Lemma den_vars_eq : forall vs vs', (forall nm, in_vars vs nm = in_vars vs' nm) -> forall c p idx, den r g h vs c p idx = den r g h vs' c p idx.
Proof.
  intros vs vs' E. induction c as [nm k cs IH] using meta_ind'. intros p idx.
  assert (B : forall idx, map (fun d => (mname d, den r g h vs d (p ++ [mname d]) idx)) cs = map (fun d => (mname d, den r g h vs' d (p ++ [mname d]) idx)) cs).
  { intros idx'. apply map_ext_in. intros d I. f_equal. now apply IH. }
  cbn [den]. destruct k as [| |dt nd].
  - now rewrite B.
  - unfold size_at. rewrite E. f_equal. apply map_ext. intros i. now rewrite B.
  - unfold val_at. now rewrite E.
Qed.

Theorem read_all : forall fs, read_vars m r g h (sorted_vars g) [] = Ok fs -> same m (NStruct fs) (NStruct (den_fields r g h (g_vars g) (mchildren m) [] [])).
Proof.
  intros fs H. pose proof (read_vars_spec (sorted_vars g) [] [] fs eq_refl reads_nil H) as R. destruct m as [nm k cs] eqn:Em. cbn in K. subst k. constructor. intros c I.
  assert (ND1 : NoDup (map mname cs)) by (inversion W; subst; auto). rewrite den_field; auto. cbn [app].
  rewrite <- (den_vars_eq (sorted_vars g) (g_vars g) in_vars_sorted). apply R. rewrite Em. exact I.
Qed.

(** every variable can be read for all its nodes *)
Lemma visited_mono : forall vs vs' cs names idx p idx', (forall q i, size_at r g h vs q i <> 0 -> size_at r g h vs q i = size_at r g h vs' q i) ->
  visited r g h vs cs names idx p idx' -> visited r g h vs' cs names idx p idx'.
Proof.
  intros vs vs' cs names idx p idx' H V. induction V as [|? ? ? ? ? d ? F KD V IH|? ? ? ? ? d i ? F KD L V IH]; [constructor|eapply vt_struct; eauto|].
  eapply vt_aos; eauto. rewrite <- H; [exact L|lia].
Qed.
Lemma read_total : (forall v, In v (g_vars g) -> exists c0, meta_at m (split_on "."%char (v_name v)) = Some c0 /\
    forall idx n, mkind c0 <> KStruct -> visited r g h (g_vars g) (mchildren m) [] [] (split_on "."%char (v_name v)) idx ->
      exists x, read_node r g h v (split_on "."%char (v_name v)) idx c0 n = Ok x) ->
  exists fs, read_vars m r g h (sorted_vars g) [] = Ok fs.
Proof.
  intros OK. assert (X : forall rest done fs, sorted_vars g = done ++ rest -> reads done fs -> exists fs', read_vars m r g h rest fs = Ok fs').
  { induction rest as [|v rest IH]; intros done fs E R; cbn [read_vars]; [eauto|].
    assert (Iv : In v (g_vars g)) by (apply (Permutation_in _ sorted_perm); rewrite E; apply in_or_app; right; now left).
    destruct (OK v Iv) as (c0 & M & TOT).
    assert (WM : NoDup (map mname (mchildren m)) /\ forall c, In c (mchildren m) -> wf_meta c) by (inversion W; subst; auto). destruct WM as [ND1 WC].
    assert (RV : exists fs1, read_var m r g h v fs = Ok fs1).
    { unfold read_var, var_meta. rewrite M. cbn [option_map].
      assert (ST : mkind c0 = KStruct \/ mkind c0 <> KStruct) by (destruct (mkind c0); [now left|right; discriminate|right; discriminate]). destruct ST as [ST|ST]; [rewrite ST; eauto|].
      destruct (update_total r g h done (read_node r g h v (split_on "."%char (v_name v))) (split_on "."%char (v_name v)) (mchildren m) fs [] [] c0) as [fs1 U]; auto.
      - apply split_on_nonnil.
      - rewrite <- meta_at_root; auto. apply split_on_nonnil.
      - intros idx n V. apply TOT; auto. apply (visited_mono done (g_vars g)); [|exact V]. intros q i NZ. unfold size_at in *. rewrite <- (in_vars_sorted (dotted q)).
        destruct (in_vars done (dotted q)) as [w|] eqn:D; [|congruence]. assert (IV : in_vars (sorted_vars g) (dotted q) = Some w); [|now rewrite IV].
        rewrite E. unfold in_vars in *. clear - D. induction done as [|x done IH]; [discriminate|]. cbn in *. destruct (str_eqb (v_name x) (dotted q)); auto.
      - exists fs1. destruct (mkind c0); [congruence|exact U|exact U]. }
    destruct RV as [fs1 RV]. rewrite RV. cbn [rbind]. apply (IH (done ++ [v])); [rewrite <- app_assoc; exact E|eapply read_var_step; eauto]. }
  apply (X (sorted_vars g) [] []); auto. apply reads_nil.
Qed.
End Whole.
