(** When a file can be read completely, every variable can be read at every index of its nodes. *)
From Verif Require Import Base TreeModel TreeSpec TreeProofs ValProofs StoreProofs2 NcMetaModel NcMetaSpec NcMetaProofs NcMetaProofs2 NcMetaProofs3 NcMetaProofs4 NcFileModel NcFileProofs NcFileProofs2 NcFileProofs3.
From Verif Require HashModel HashProofs2 HashProofs3.
From Coq Require Import Lia Permutation.

Section Sound.
Variable r : ncmeta.
Variable g : group.
Variable h : bool.

Lemma visited_nonnil : forall vs cs names idx p idx', visited r g h vs cs names idx p idx' -> p <> [].
Proof. intros vs cs names idx p idx' V. destruct V; discriminate. Qed.

Lemma update_sound : forall vs f p cs fs idx names c0 fs' idx', NoDup (map mname cs) -> (forall c, In c cs -> wf_meta c) ->
  meta_at (Meta [] KStruct cs) p = Some c0 -> (forall c, In c cs -> same c (field c fs) (den r g h vs c (names ++ [mname c]) idx)) ->
  update_at cs fs p idx FKey f = Ok fs' -> visited r g h vs cs names idx p idx' -> exists n x, f idx' c0 n = Ok x.
Proof.
  intros vs f. induction p as [|nm p IH]; intros cs fs idx names c0 fs' idx' ND WC M S U V; [now apply visited_nonnil in V|]. cbn [update_at] in U. cbn [meta_at mchildren] in M.
  destruct (List.find (fun d => str_eqb (mname d) nm) cs) as [d|] eqn:Fd; [|discriminate].
  assert (Hd : In d cs /\ mname d = nm) by (apply find_some in Fd; destruct Fd as [F1 F2]; apply str_eqb_eq in F2; auto). destruct Hd as [Id Nd]. subst nm. fold (field d fs) in U.
  pose proof (S d Id) as Sd. pose proof (WC d Id) as Wd. destruct p as [|nm2 p].
  - cbn [meta_at] in M. inversion M; subst c0. inversion V as [|? ? ? ? ? ? ? _ _ V'|? ? ? ? ? ? ? ? _ _ _ V']; subst; [|now apply visited_nonnil in V'|now apply visited_nonnil in V'].
    destruct (f idx' d (field d fs)) as [x|] eqn:X; [eauto|discriminate].
  - destruct d as [dn dk dc]. cbn [mname mchildren] in *. assert (MB : meta_at (Meta [] KStruct dc) (nm2 :: p) = Some c0) by exact M. inversion Wd as [? ? ? ND' WC' LF]; subst.
    inversion V as [|? ? ? ? ? d2 ? F2 K2 V2|? ? ? ? ? d2 i ? F2 K2 L2 V2]; subst; rewrite Fd in F2; inversion F2; subst d2; cbn [mkind mchildren] in *; subst dk.
    + destruct (field (Meta dn KStruct dc) fs) as [fsd|els|lv] eqn:Fi; [|inversion Sd|inversion Sd].
      assert (SF : forall c, In c dc -> same c (field c fsd) (den r g h vs c ((names ++ [dn]) ++ [mname c]) idx)).
      { inversion Sd as [|? ? fa fb SF|]; subst. intros c1 I1. rewrite <- (den_field r g h vs dc (names ++ [dn]) idx c1); auto. }
      destruct (update_at dc fsd (nm2 :: p) idx FKey f) as [fs2|] eqn:U2; [|discriminate]. eapply (IH dc fsd idx (names ++ [dn])); eauto.
    + destruct (field (Meta dn KAoS dc) fs) as [fsd|els|lv] eqn:Fi; [inversion Sd| |inversion Sd].
      cbn [den] in Sd. inversion Sd as [| |? ? ea eb LE FE]; subst. rewrite map_length, seq_length in LE.
      destruct (map_index _ 0 els) as [els'|] eqn:MI; [|discriminate]. apply map_index_ok in MI. destruct MI as [_ MI].
      destruct (nth_error els i) as [x|] eqn:X; [|apply nth_error_None in X; lia]. destruct (MI i x X) as (y & Y & _). cbn [Nat.add] in Y.
      destruct (update_at dc (node_fields x) (nm2 :: p) (idx ++ [i]) FKey f) as [fs2|] eqn:U2; [|discriminate].
      assert (SX : same (Meta dn KStruct dc) x (NStruct (den_fields r g h vs dc (names ++ [dn]) (idx ++ [i])))).
      { apply (FE i); auto. rewrite nth_error_map, seq_nth_error by lia. reflexivity. }
      inversion SX as [|? ? fx0 ? SF|]; subst. cbn [node_fields] in U2. eapply (IH dc fx0 (idx ++ [i]) (names ++ [dn])); eauto.
      intros c1 I1. rewrite <- (den_field r g h vs dc (names ++ [dn]) (idx ++ [i]) c1); auto.
Qed.

(** every data node and array of structures can be read, at every index *)
Inductive readable (vs : list ncvar) : meta -> path -> list nat -> Prop :=
| rd_leaf : forall nm dt nd cs p idx, (forall v, in_vars vs (dotted p) = Some v -> exists x, leaf_value g v dt nd idx = Ok x) -> readable vs (Meta nm (KLeaf dt nd) cs) p idx
| rd_struct : forall nm cs p idx, (forall d, In d cs -> readable vs d (p ++ [mname d]) idx) -> readable vs (Meta nm KStruct cs) p idx
| rd_aos : forall nm cs p idx, (forall v, in_vars vs (dotted p) = Some v -> exists k, aos_size r g h v p idx = Ok k) ->
    (forall i, i < size_at r g h vs p idx -> forall d, In d cs -> readable vs d (p ++ [mname d]) (idx ++ [i])) -> readable vs (Meta nm KAoS cs) p idx.

Lemma visited_struct : forall vs cs names idx p idx' d nm, visited r g h vs cs names idx p idx' -> meta_at (Meta [] KStruct cs) p = Some d -> mkind d = KStruct ->
  visited r g h vs cs names idx (p ++ [nm]) idx'.
Proof.
  intros vs cs names idx p idx' d nm V. induction V as [cs names idx n1|cs names idx n1 p d1 idx' F K V IH|cs names idx n1 p d1 i idx' F K L V IH]; intros M KD.
  - cbn [meta_at mchildren] in M. destruct (List.find _ cs) as [d1|] eqn:F; [|discriminate]. inversion M; subst. cbn [app]. eapply vt_struct; eauto. constructor.
  - cbn [app]. eapply vt_struct; eauto. apply IH; auto. cbn [meta_at mchildren] in M. rewrite F in M. destruct p; [now apply visited_nonnil in V|exact M].
  - cbn [app]. eapply vt_aos; eauto. apply IH; auto. cbn [meta_at mchildren] in M. rewrite F in M. destruct p; [now apply visited_nonnil in V|exact M].
Qed.
Lemma visited_aos : forall vs cs names idx p idx' d nm i, visited r g h vs cs names idx p idx' -> meta_at (Meta [] KStruct cs) p = Some d -> mkind d = KAoS ->
  i < size_at r g h vs (names ++ p) idx' -> visited r g h vs cs names idx (p ++ [nm]) (idx' ++ [i]).
Proof.
  intros vs cs names idx p idx' d nm i V. induction V as [cs names idx n1|cs names idx n1 p d1 idx' F K V IH|cs names idx n1 p d1 j idx' F K L V IH]; intros M KD LI.
  - cbn [meta_at mchildren] in M. destruct (List.find _ cs) as [d1|] eqn:F; [|discriminate]. inversion M; subst. cbn [app]. eapply vt_aos; eauto. constructor.
  - cbn [app]. eapply vt_struct; eauto. apply IH; auto; [|rewrite <- app_assoc; exact LI]. cbn [meta_at mchildren] in M. rewrite F in M. destruct p; [now apply visited_nonnil in V|exact M].
  - cbn [app]. eapply vt_aos; eauto. apply IH; auto; [|rewrite <- app_assoc; exact LI]. cbn [meta_at mchildren] in M. rewrite F in M. destruct p; [now apply visited_nonnil in V|exact M].
Qed.
End Sound.

Section Whole.
Variable m : meta.
Variable r : ncmeta.
Variable g : group.
Hypothesis W : wf_meta m.
Hypothesis K : mkind m = KStruct.
Hypothesis CL : clean m.
Variable h : bool.
Hypothesis ND : NoDup (map v_name (g_vars g)).

(** in the order of reading, the arrays of structures around a variable come before it *)
Lemma early : forall done v rest q t, sorted_vars g = done ++ v :: rest -> split_on "."%char (v_name v) = q ++ t -> q <> [] -> t <> [] ->
  in_vars done (dotted q) = in_vars (g_vars g) (dotted q).
Proof.
  intros done v rest q t E S NQ NT. assert (EV : v_name v = dotted q ++ "."%char :: dotted t) by (rewrite <- dotted_app, <- S, dotted_split; auto).
  pose proof (sorted_order g) as SO. pose proof (sorted_nodup g ND) as SN. rewrite E in SO, SN.
  destruct (in_vars (g_vars g) (dotted q)) as [w|] eqn:IW.
  - rewrite <- (in_vars_sorted g ND), E in IW. apply in_vars_some in IW. destruct IW as [I EW].
    assert (LW : HashModel.str_leb (v_name w) (v_name v) = true) by (rewrite EV, EW; apply str_leb_app).
    assert (NE : v_name w <> v_name v).
    { rewrite EV, EW. intros Q. apply (f_equal (@length ascii)) in Q. rewrite app_length in Q. cbn in Q. lia. }
    assert (ID : In w done).
    { apply in_app_or in I. destruct I as [I|I]; [exact I|]. destruct I as [->|I]; [congruence|]. exfalso. apply NE. apply HashProofs3.str_leb_antisym; auto.
      clear - SO I. induction done as [|x done IH]; cbn in SO; inversion SO as [|? ? R S']; subst; auto. }
    destruct (in_vars done (dotted q)) as [w'|] eqn:D.
    + apply in_vars_some in D. destruct D as [I' E']. f_equal. assert (SD : NoDup (map v_name done)) by (rewrite map_app in SN; clear - SN; induction (map v_name done) as [|x l IH]; [constructor|]; cbn in SN; inversion SN as [|? ? N1 N2]; subst; constructor; [intros Q; apply N1; apply in_or_app; now left|auto]). eapply nodup_map_inj; eauto. congruence.
    + apply in_vars_none in D. exfalso. apply D. rewrite <- EW. now apply List.in_map.
  - apply in_vars_none. apply in_vars_none in IW. intros Q. apply IW. apply in_map_iff in Q. destruct Q as (w & <- & I). apply List.in_map.
    apply (Permutation_in _ (sorted_perm g)). rewrite E. apply in_or_app. now left.
Qed.
Lemma early_visited : forall done v rest, sorted_vars g = done ++ v :: rest ->
  forall cs names idx p idx', visited r g h (g_vars g) cs names idx p idx' -> names ++ p = split_on "."%char (v_name v) -> visited r g h done cs names idx p idx'.
Proof.
  intros done v rest E cs names idx p idx' V. induction V as [cs names idx n1|cs names idx n1 p d1 idx' F KD V IH|cs names idx n1 p d1 j idx' F KD L V IH]; intros EN.
  - constructor.
  - eapply vt_struct; eauto. apply IH. rewrite <- app_assoc. exact EN.
  - assert (EN2 : (names ++ [n1]) ++ p = split_on "."%char (v_name v)) by (rewrite <- app_assoc; exact EN).
    eapply vt_aos; eauto. unfold size_at in *. rewrite (early done v rest _ p E (eq_sym EN2)); auto; [destruct names; discriminate|now apply visited_nonnil in V].
Qed.

Lemma read_vars_split : forall rest done fs fs' v, sorted_vars g = done ++ rest -> reads m r g h done fs -> read_vars m r g h rest fs = Ok fs' -> In v rest ->
  exists done' rest' fs1 fs2, sorted_vars g = done' ++ v :: rest' /\ reads m r g h done' fs1 /\ read_var m r g h v fs1 = Ok fs2.
Proof.
  induction rest as [|w rest IH]; intros done fs fs' v E R H I; [destruct I|]. cbn [read_vars] in H.
  destruct (read_var m r g h w fs) as [fs1|e] eqn:V; [|discriminate]. cbn [rbind] in H. destruct I as [->|I]; [exists done, rest, fs, fs1; auto|].
  eapply (IH (done ++ [w]) fs1); eauto; [rewrite <- app_assoc; exact E|]. eapply read_var_step; eauto.
Qed.

Lemma read_sound : forall fs v c0 idx, read_vars m r g h (sorted_vars g) [] = Ok fs -> In v (g_vars g) -> meta_at m (split_on "."%char (v_name v)) = Some c0 -> mkind c0 <> KStruct ->
  visited r g h (g_vars g) (mchildren m) [] [] (split_on "."%char (v_name v)) idx -> exists n x, read_node r g h v (split_on "."%char (v_name v)) idx c0 n = Ok x.
Proof.
  intros fs v c0 idx H I M KN V. destruct (read_vars_split (sorted_vars g) [] [] fs v eq_refl ltac:(apply reads_nil; auto) H) as (done & rest & fs1 & fs2 & E & R & RV).
  { apply (Permutation_in _ (Permutation_sym (sorted_perm g))). exact I. }
  unfold read_var, var_meta in RV. rewrite M in RV. cbn [option_map] in RV.
  assert (U : update_at (mchildren m) fs1 (split_on "."%char (v_name v)) [] FKey (read_node r g h v (split_on "."%char (v_name v))) = Ok fs2) by (destruct (mkind c0); [congruence|exact RV|exact RV]).
  assert (WM : NoDup (map mname (mchildren m)) /\ forall c, In c (mchildren m) -> wf_meta c) by (inversion W; subst; auto). destruct WM as [ND1 WC].
  eapply (update_sound r g h done _ (split_on "."%char (v_name v)) (mchildren m) fs1 [] [] c0 fs2 idx); auto.
  - rewrite <- meta_at_root; auto. apply split_on_nonnil.
  - eapply early_visited; eauto.
Qed.

Lemma meta_at_snoc : forall p c d, p <> [] -> meta_at m p = Some c -> NoDup (map mname (mchildren c)) -> In d (mchildren c) -> meta_at m (p ++ [mname d]) = Some d.
Proof.
  intros p. generalize m. induction p as [|nm p IH]; intros m0 c d NE M NDc I; [congruence|]. cbn [meta_at app] in *. destruct (List.find _ (mchildren m0)) as [x|]; [|discriminate].
  destruct p as [|nm2 p].
  - cbn [meta_at] in M. inversion M; subst x. cbn [app meta_at]. rewrite find_name; auto.
  - apply IH with (c := c); auto. discriminate.
Qed.

Theorem all_readable : forall fs, read_vars m r g h (sorted_vars g) [] = Ok fs -> readable r g h (g_vars g) m [] [].
Proof.
  intros fs H. assert (X : forall c p idx, p <> [] -> Forall nodot p -> wf_meta c -> clean c -> meta_at m p = Some c -> visited r g h (g_vars g) (mchildren m) [] [] p idx -> readable r g h (g_vars g) c p idx).
  { induction c as [nm k cs IH] using meta_ind'. intros p idx NE F Wc Cc M V. inversion Wc as [? ? ? NDc WC LF]; subst. inversion Cc as [? ? ? CC]; subst.
    assert (RN : forall v, in_vars (g_vars g) (dotted p) = Some v -> k <> KStruct -> exists n x, read_node r g h v p idx (Meta nm k cs) n = Ok x).
    { intros v IV KN. apply in_vars_some in IV. destruct IV as [I EV]. assert (ES : split_on "."%char (v_name v) = p) by (rewrite EV; now apply split_dotted).
      rewrite <- ES. apply (read_sound fs); auto; rewrite ES; auto. }
    assert (SN : forall d, p ++ [mname d] <> []) by (intros d Q; destruct p; discriminate).
    assert (SF : forall d, In d cs -> Forall nodot (p ++ [mname d])) by (intros d I; apply Forall_app; split; auto; constructor; [apply CC; auto|constructor]).
    assert (MR : meta_at (Meta [] KStruct (mchildren m)) p = Some (Meta nm k cs)) by (rewrite <- meta_at_root; auto).
    destruct k as [| |dt nd].
    - constructor. intros d I. apply IH; auto; [apply CC; auto|eapply meta_at_snoc; eauto; cbn; auto|]. eapply visited_struct; eauto.
    - constructor.
      + intros v IV. destruct (RN v IV) as (n & x & RX); [discriminate|]. unfold read_node in RX. cbn [mkind] in RX. destruct (aos_size r g h v p idx); [eauto|discriminate].
      + intros i L d I. apply IH; auto; [apply CC; auto|eapply meta_at_snoc; eauto; cbn; auto|]. eapply visited_aos; eauto.
    - constructor. intros v IV. destruct (RN v IV) as (n & x & RX); [discriminate|]. unfold read_node in RX. cbn [mkind] in RX. destruct (leaf_value g v dt nd idx); [eauto|discriminate]. }
  assert (EM : exists nm cs, m = Meta nm KStruct cs) by (destruct m as [nm k cs]; cbn in K; subst; eauto). destruct EM as (nm & cs & EM).
  assert (WM : NoDup (map mname (mchildren m)) /\ forall c, In c (mchildren m) -> wf_meta c) by (inversion W; subst; auto). destruct WM as [ND1 WC].
  rewrite EM at 1. constructor. intros d I. assert (I2 : In d (mchildren m)) by (rewrite EM; exact I). assert (C12 : nodot (mname d) /\ clean d) by (rewrite EM in CL; inversion CL; subst; auto). destruct C12 as [C1 C2]. cbn [app]. apply X; auto.
  - discriminate.
  - cbn [meta_at]. rewrite find_name; auto.
  - constructor.
Qed.
End Whole.
