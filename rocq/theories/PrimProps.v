(** C11: a scalar that is set to its empty value is the same as one that was never set. *)
From Verif Require Import Base TreeModel TreeSpec PrimModel PrimSpec.
From Verif Require NcEntryModel.

Lemma quot_spec : forall s b z, (0 < b)%Z ->
  (z = Z.quot s b <-> (Z.abs z * b <= Z.abs s < (Z.abs z + 1) * b /\ 0 <= z * s)%Z).
Proof.
  intros s b z B.
  assert (Qa : Z.abs (Z.quot s b) = (Z.abs s / b)%Z).
  { rewrite <- Z.quot_abs by lia. rewrite (Z.abs_eq b) by lia. apply Z.quot_div_nonneg; lia. }
  assert (Qs : (0 <= Z.quot s b * s)%Z).
  { destruct (Z.le_gt_cases 0 s) as [S|S].
    - apply Z.mul_nonneg_nonneg; auto. apply Z.quot_pos; lia.
    - apply Z.mul_nonpos_nonpos; [|lia]. assert (H : (0 <= Z.quot (- s) b)%Z) by (apply Z.quot_pos; lia). rewrite Z.quot_opp_l in H by lia. lia. }
  pose proof (Z.div_mod (Z.abs s) b ltac:(lia)) as Dm. pose proof (Z.mod_pos_bound (Z.abs s) b B) as Mb.
  split.
  - intros ->. split; auto. rewrite Qa. split; lia.
  - intros ((H1 & H2) & H3).
    assert (A : Z.abs z = Z.abs (Z.quot s b)).
    { rewrite Qa. apply Z.div_unique with (r := (Z.abs s - b * Z.abs z)%Z); lia. }
    destruct (Z.eq_dec s 0) as [S0|S0].
    + rewrite S0 in *. rewrite Z.quot_0_l in * by lia. lia.
    + set (q := Z.quot s b) in *. clearbody q. clear Qa Dm Mb H1 H2. destruct (Z.lt_ge_cases 0 s) as [S|S].
      * assert (0 <= z)%Z by (apply (Z.mul_nonneg_cancel_r _ s); auto). assert (0 <= q)%Z by (apply (Z.mul_nonneg_cancel_r _ s); auto). lia.
      * assert (z <= 0)%Z. { destruct (Z.le_gt_cases z 0); auto. assert (z * s < 0)%Z by (apply Z.mul_pos_neg; lia). lia. }
        assert (q <= 0)%Z. { destruct (Z.le_gt_cases q 0); auto. assert (q * s < 0)%Z by (apply Z.mul_pos_neg; lia). lia. }
        lia.
Qed.
Lemma trunc_spec : forall f z, trunc f = Ok z <-> truncates f z.
Proof.
  intros f z. unfold trunc, truncates, finite. destruct (Z.eqb_spec (f_exp f) 2047) as [E|N]; [split; [discriminate|tauto]|].
  generalize (f_frac f) (f_pow f). clear - N. intros s e. cbv zeta. destruct (Z.leb_spec 0 e) as [P|P].
  - split.
    + intros H. inversion H. split; auto. split; auto. intros K. exfalso. apply (Z.lt_irrefl e). eapply Z.lt_le_trans; eauto.
    + intros (_ & H & _). rewrite H; auto.
  - assert (B : (0 < 2 ^ (- e))%Z) by (apply Z.pow_pos_nonneg; lia). pose proof (quot_spec s (2 ^ (- e)) z B) as Q.
    split.
    + intros H. inversion H as [H']. split; auto. split; [intros K; exfalso; apply (Z.lt_irrefl e); eapply Z.lt_le_trans; eauto|].
      intros _. rewrite H'. apply Q. auto.
    + intros (_ & _ & H). f_equal. symmetry. apply Q. auto.
Qed.

Lemma feq_empty : forall f, (0 <= f < 2 ^ 64)%Z -> (feq f EMPTY_FLOAT = true <-> f = EMPTY_FLOAT).
Proof.
  intros f R. split; [|intros ->; vm_compute; reflexivity]. unfold feq. intros H. apply andb_true_iff in H. destruct H as (_ & H).
  apply Z.eqb_eq in H. change (f_key EMPTY_FLOAT) with (- Z.land EMPTY_FLOAT (Z.ones 63))%Z in H.
  unfold f_key, f_mag, f_neg in H.
  assert (D : (f = 2 ^ 63 * (f / 2 ^ 63) + f mod 2 ^ 63)%Z) by (apply Z.div_mod; lia).
  rewrite !Z.land_ones in H by lia. change (EMPTY_FLOAT mod 2 ^ 63)%Z with (EMPTY_FLOAT - 2 ^ 63)%Z in H.
  assert (Hb : Z.testbit f 63 = (f / 2 ^ 63 =? 1)%Z).
  { rewrite Z.testbit_odd, Z.shiftr_div_pow2 by lia. assert (0 <= f / 2 ^ 63 < 2)%Z.
    { split; [apply Z.div_pos; lia|apply Z.div_lt_upper_bound; lia]. }
    assert (f / 2 ^ 63 = 0 \/ f / 2 ^ 63 = 1)%Z as [-> | ->] by lia; reflexivity. }
  rewrite Hb in H. pose proof (Z.mod_pos_bound f (2 ^ 63) ltac:(lia)) as Mb. destruct (Z.eqb_spec (f / 2 ^ 63) 1) as [E|E].
  - rewrite E in D. unfold EMPTY_FLOAT in *. lia.
  - exfalso. unfold EMPTY_FLOAT in H. lia.
Qed.

Lemma is_empty_spec : forall dt v, is_empty dt v = true <-> empty dt v.
Proof.
  assert (F : forall f, feq f EMPTY_FLOAT = true <-> same_flt f EMPTY_FLOAT).
  { intros f. unfold feq, same_flt. replace (is_nan EMPTY_FLOAT) with false by (vm_compute; reflexivity). cbn [negb].
    rewrite !andb_true_iff, negb_true_iff, Z.eqb_eq. intuition discriminate. }
  intros dt v. unfold is_empty. split.
  - destruct dt, v; try discriminate; intros H.
    + apply str_eqb_eq in H. subst. constructor.
    + apply Z.eqb_eq in H. subst. constructor.
    + constructor. apply F; auto.
    + apply andb_true_iff in H. destruct H. constructor; apply F; auto.
  - intros H. inversion H; subst; auto; [apply F; auto|apply andb_true_iff; split; apply F; auto].
Qed.

Section Props.
Variable str_of : pyval -> str.
Variable parse_float : str -> option flt.
Variable parse_cpx : str -> option (flt * flt).
Variable flt_of_int : Z -> option flt.
Variable np_cast : dtype -> pyval -> result pexn value.
Variable array_items : value -> list pyval.
Notation means := (means str_of parse_float parse_cpx flt_of_int).
Notation assigned := (assigned str_of parse_float parse_cpx flt_of_int np_cast array_items).
Notation python_type := (python_type str_of parse_float parse_cpx flt_of_int).
Notation run := (run str_of parse_float parse_cpx flt_of_int np_cast array_items).

Lemma int_ok : forall p z, (to_int p = Ok z /\ (is_text p = true -> not_isnan_able (VInt z) = false)) <-> (means INT p (VInt z) /\ (forall q, p <> PNd q)).
Proof.
  intros p z. assert (R : not_isnan_able (VInt z) = false <-> (- 2 ^ 63 <= z < 2 ^ 64)%Z).
  { cbn. rewrite orb_false_iff, Z.ltb_ge, Z.leb_gt. tauto. }
  split.
  - intros (H & T). split; [|intros q ->; discriminate].
    destruct p as [s|[s|]|x|[]|f|? ?| | | |?|dt [|nd] v]; cbn in H; try discriminate.
    + destruct (NcEntryModel.py_int s) eqn:E; [|discriminate]. inversion H; subst. eapply mn_int_text; eauto; [constructor|]. apply R, T. reflexivity.
    + destruct (NcEntryModel.py_int s) eqn:E; [|discriminate]. inversion H; subst. eapply mn_int_text; eauto; [constructor|]. apply R, T. reflexivity.
    + inversion H; subst. apply mn_int. constructor.
    + inversion H; subst. apply mn_int. constructor.
    + inversion H; subst. apply mn_int. constructor.
    + eapply mn_trunc; [constructor|]. apply trunc_spec; auto.
    + destruct v; try discriminate; [inversion H; subst; apply mn_int; constructor|].
      eapply mn_trunc; [constructor|]. apply trunc_spec; auto.
  - intros (H & N). inversion H; subst; try (match goal with X : holds_int _ _ |- _ => inversion X; subst end; (split; [reflexivity|intros Ht; discriminate])).
    + match goal with X : holds_flt _ _ |- _ => inversion X; subst end; (split; [apply trunc_spec; auto|intros Ht; discriminate]).
    + match goal with X : text _ _, Y : NcEntryModel.py_int _ = _ |- _ => inversion X; subst; cbn [to_int]; rewrite Y end; (split; [reflexivity|intros _; apply R; auto]).
    + edestruct N; eauto.
Qed.
Lemma flt_ok : forall p f, (to_flt parse_float flt_of_int p = Ok f /\ (is_text p = true -> is_nan f = false)) <->
  (means FLT p (VFlt f) /\ (forall q, p <> PNd q)).
Proof.
  intros p f. unfold to_flt, int_to_flt. split.
  - intros (H & T). split; [|intros q ->; discriminate].
    destruct p as [s|[s|]|x|[]|g|? ?| | | |?|dt [|nd] v]; try discriminate.
    + destruct (parse_float s) eqn:E; [|discriminate]. inversion H; subst. eapply mn_flt_text; eauto. constructor.
    + destruct (parse_float s) eqn:E; [|discriminate]. inversion H; subst. eapply mn_flt_text; eauto. constructor.
    + destruct (flt_of_int x) eqn:E; [|discriminate]. inversion H; subst. eapply mn_flt_int; eauto. constructor.
    + destruct (flt_of_int 1) eqn:E; [|discriminate]. inversion H; subst. eapply mn_flt_int; eauto. constructor.
    + destruct (flt_of_int 0) eqn:E; [|discriminate]. inversion H; subst. eapply mn_flt_int; eauto. constructor.
    + inversion H; subst. apply mn_flt. constructor.
    + destruct v; try discriminate.
      * destruct (flt_of_int z) eqn:E; [|discriminate]. inversion H; subst. eapply mn_flt_int; eauto. constructor.
      * inversion H; subst. apply mn_flt. constructor.
  - intros (H & N). inversion H; subst.
    + match goal with X : holds_flt _ _ |- _ => inversion X; subst end; (split; [reflexivity|intros Ht; discriminate]).
    + match goal with X : holds_int _ _, Y : flt_of_int _ = _ |- _ => inversion X; subst; rewrite Y end; (split; [reflexivity|intros Ht; discriminate]).
    + match goal with X : text _ _, Y : parse_float _ = _ |- _ => inversion X; subst; rewrite Y end; (split; [reflexivity|auto]).
    + edestruct N; eauto.
Qed.
Lemma cpx_ok : forall p r i, (to_cpx parse_float parse_cpx flt_of_int p = Ok (r, i) /\ (is_text p = true -> is_nan r || is_nan i = false)) <->
  (means CPX p (VCpx r i) /\ (forall q, p <> PNd q)).
Proof.
  intros p r i. split.
  - intros (H & T). split; [|intros q ->; discriminate].
    assert (F : is_text p = false -> (match to_flt parse_float flt_of_int p with Ok f => Ok (f, 0%Z) | Err e => Err e end = Ok (r, i)) -> means CPX p (VCpx r i)).
    { intros Tx Q. destruct (to_flt parse_float flt_of_int p) as [f|e] eqn:Fp; [|discriminate]. inversion Q; subst.
      assert (M : means FLT p (VFlt r)) by (apply flt_ok; split; auto; congruence).
      inversion M; subst.
      - apply mn_cpx_flt; auto.
      - eapply mn_cpx_int; eauto.
      - match goal with X : text _ _ |- _ => inversion X; subst; discriminate end.
      - discriminate. }
    destruct p as [s|[s|]|x|[]|g|? ?| | | |?|dt [|nd] v]; try (apply F; [reflexivity|exact H]); try discriminate.
    + cbn in H. destruct (parse_cpx s) as [(r', i')|] eqn:E; [|discriminate]. inversion H; subst.
      specialize (T eq_refl). apply orb_false_iff in T. destruct T. apply mn_cpx_text; auto.
    + inversion H; subst. apply mn_cpx. constructor.
    + destruct v; try (apply F; [reflexivity|exact H]). inversion H; subst. apply mn_cpx. constructor.
  - intros (H & N). inversion H; subst.
    + match goal with X : holds_cpx _ _ _ |- _ => inversion X; subst end; (split; [reflexivity|intros Ht; discriminate]).
    + match goal with X : holds_flt _ _ |- _ => inversion X; subst end; (split; [reflexivity|intros Ht; discriminate]).
    + match goal with X : holds_int _ _, Y : flt_of_int _ = _ |- _ => inversion X; subst; cbn; unfold int_to_flt; rewrite Y end; (split; [reflexivity|intros Ht; discriminate]).
    + cbn. match goal with Y : parse_cpx _ = _ |- _ => rewrite Y end. split; [reflexivity|intros _; apply orb_false_iff; auto].
    + edestruct N; eauto.
Qed.
Lemma str_ok_ : forall p s, cast_str str_of p = Ok s <-> means STR p (VStr s).
Proof.
  intros p s. split.
  - intros H. destruct p as [t|[t|]|x|b|g|? ?| | | |?|[] [|nd] v]; try discriminate; cbn in H;
      try (inversion H; subst; first [apply mn_text; constructor | apply mn_repr; intros [(? & E)|[(? & E)|(? & E)]]; discriminate]).
    destruct v; inversion H; subst; first [apply mn_text_node | apply mn_repr; intros [(? & E)|[(? & E)|(? & E)]]; discriminate].
  - intros H. inversion H; subst; try reflexivity.
    + match goal with X : text _ _ |- _ => inversion X; subst end; reflexivity.
    + match goal with X : ~ textual _ |- _ => rename X into N end.
      destruct p as [t|[t|]|x|b|g|? ?| | | |?|[] [|nd] v]; try reflexivity; try (exfalso; apply N; unfold textual; eauto; fail).
      destruct v; try reflexivity. exfalso. apply N. unfold textual. eauto.
    + congruence.
Qed.

Lemma means_type : forall dt p v, means dt p v -> match dt, v with STR, VStr _ | INT, VInt _ | FLT, VFlt _ | CPX, VCpx _ _ => True | _, _ => False end.
Proof. intros dt p v H. induction H; auto. Qed.

(** assigning p succeeds and stores v iff p means v for the type of the node *)
Lemma cast_num_means : forall dt p v, dt <> STR -> (forall q, p <> PNd (PNd q)) ->
  (cast_num str_of parse_float parse_cpx flt_of_int dt p = Ok v <-> means dt p v).
Proof.
  intros dt p v D NN.
  assert (Base : forall p, (forall q, p <> PNd q) ->
    ((match python_type dt p with Ok v => if is_text p && not_isnan_able v then Err TypeErr else Ok v | Err e => Err e end) = Ok v <-> means dt p v)).
  { clear p NN. intros p N.
    assert (Tx : forall b, (if is_text p && b then Err TypeErr else Ok v) = Ok v <-> (is_text p = true -> b = false)).
    { intros b. destruct (is_text p), b; simpl; split; intros; try discriminate; auto. specialize (H eq_refl). discriminate. }
    destruct dt; [congruence| | |].
    - cbn [python_type]. destruct v as [| z | | | | | | ]; try (split; [destruct (to_int p); cbn; try discriminate; destruct (_ && _); discriminate|intros M; destruct (means_type _ _ _ M)]; fail).
      pose proof (int_ok p z) as I. split.
      + intros H. destruct (to_int p) as [z'|e]; [|discriminate]. destruct (is_text p && not_isnan_able (VInt z')) eqn:B; [discriminate|]. inversion H; subst.
        apply I. split; auto. intros T. rewrite T in B. auto.
      + intros M. destruct (proj2 I (conj M N)) as (-> & T). apply Tx; auto.
    - cbn [python_type]. destruct v as [| | f | | | | | ]; try (split; [destruct (to_flt _ _ p); cbn; try discriminate; destruct (_ && _); discriminate|intros M; destruct (means_type _ _ _ M)]; fail).
      pose proof (flt_ok p f) as I. split.
      + intros H. destruct (to_flt _ _ p) as [f'|e]; [|discriminate]. destruct (is_text p && not_isnan_able (VFlt f')) eqn:B; [discriminate|]. inversion H; subst.
        apply I. split; auto. intros T. rewrite T in B. auto.
      + intros M. destruct (proj2 I (conj M N)) as (-> & T). apply Tx; auto.
    - cbn [python_type]. destruct v as [| | | r i | | | | ]; try (split; [destruct (to_cpx _ _ _ p) as [(?, ?)|]; cbn; try discriminate; destruct (_ && _); discriminate|intros M; destruct (means_type _ _ _ M)]; fail).
      pose proof (cpx_ok p r i) as I. split.
      + intros H. destruct (to_cpx _ _ _ p) as [(r', i')|e]; [|discriminate]. destruct (is_text p && not_isnan_able (VCpx r' i')) eqn:B; [discriminate|]. inversion H; subst.
        apply I. split; auto. intros T. rewrite T in B. auto.
      + intros M. destruct (proj2 I (conj M N)) as (-> & T). apply Tx; auto. }
  unfold cast_num. cbv zeta. destruct p; try (apply Base; intros q E; discriminate).
  rewrite Base; [|intros q ->; eapply NN; eauto]. split.
  - intros M. apply mn_array; auto. intros q ->. eapply NN; eauto.
  - intros M. inversion M; subst; auto;
    try (match goal with X : holds_int _ _ |- _ => inversion X end); try (match goal with X : holds_flt _ _ |- _ => inversion X end);
    try (match goal with X : holds_cpx _ _ _ |- _ => inversion X end); try (match goal with X : text _ _ |- _ => inversion X end); congruence.
Qed.

(** Values of data nodes have the type of the node; a 0-dimensional numpy array does not hold an array. *)
Definition wf_py (p : pyval) : Prop :=
  (forall dt nd v, p = PNode dt nd v -> val_ok dt nd v) /\ (forall q, p <> PNd (PNd q)).

Theorem C11_assign_iff : forall dt p v, wf_py p -> (assigned dt 0 p = Ok v <-> means dt p v).
Proof.
  intros dt p v (W & N).
  assert (C : cast_value str_of parse_float parse_cpx flt_of_int np_cast array_items dt 0 p = Ok v <-> means dt p v).
  { destruct dt; try (apply cast_num_means; auto; discriminate). cbn. pose proof (fun s => str_ok_ p s) as S. split.
    - intros H. destruct (cast_str str_of p) as [s|e]; [|discriminate]. inversion H; subst. apply S. auto.
    - intros M. destruct v; try destruct (means_type _ _ _ M). apply S in M. rewrite M. auto. }
  unfold PrimModel.assigned. destruct p as [| | | | | | | | | |dt' nd' v']; auto. specialize (W _ _ _ eq_refl).
  destruct (same_class dt 0 dt' nd') eqn:K; auto. destruct nd' as [|nd']; [|destruct dt; discriminate].
  assert (dt' = dt) as -> by (destruct dt, dt'; try discriminate; auto). replace (dtype_eqb dt dt) with true by (destruct dt; reflexivity). cbn [andb Nat.eqb].
  assert (M : means dt (PNode dt 0 v') v').
  { inversion W; subst; try lia; [apply mn_text_node|apply mn_int; constructor|apply mn_flt; constructor|apply mn_cpx; constructor| | |];
      match goal with H : length ?s = 0, H' : ?s <> [] |- _ => destruct s; [congruence|discriminate] end. }
  split; [intros [= <-]; auto|]. intros M'. f_equal.
  clear - W M'. inversion M'; subst; inversion W; subst; auto;
    try (match goal with X : holds_int _ _ |- _ => inversion X; subst; auto end); try (match goal with X : holds_flt _ _ |- _ => inversion X; subst; auto end);
    try (match goal with X : holds_cpx _ _ _ |- _ => inversion X; subst; auto end); try (match goal with X : text _ _ |- _ => inversion X; subst; auto end);
    try lia; try discriminate; exfalso;
    try (match goal with X : ~ textual _ |- _ => apply X; unfold textual; eauto end).
Qed.

(** Histories of assignments (successful or not) and reads of a scalar *)
Definition scalar_op (o : op) : Prop := o = ORead \/ exists p, o = OAssign p /\ wf_py p.
(** p was assigned, and no later assignment succeeded *)
Definition last_assigned (dt : dtype) (ops : list op) (v : value) : Prop :=
  exists a p b, ops = a ++ OAssign p :: b /\ means dt p v /\ forall q, In (OAssign q) b -> forall w, ~ means dt q w.

Lemma run_snoc : forall dt nd ops o, run dt nd (ops ++ [o]) =
  step str_of parse_float parse_cpx flt_of_int np_cast array_items dt nd (run dt nd ops) o.
Proof. intros. unfold PrimModel.run. rewrite fold_left_app. reflexivity. Qed.

Theorem C11_state : forall dt ops v, (forall o, In o ops -> scalar_op o) ->
  (run dt 0 ops = Some v <-> last_assigned dt ops v /\ ~ empty dt v).
Proof.
  intros dt ops. induction ops as [|o ops IH] using rev_ind; intros v S.
  { split; [discriminate|]. intros ((a & p & b & E & _) & _). destruct a; discriminate. }
  assert (S' : forall o, In o ops -> scalar_op o) by (intros; apply S; apply in_or_app; auto).
  assert (So : scalar_op o) by (apply S; apply in_or_app; right; left; auto).
  rewrite run_snoc. destruct So as [-> | (p & -> & Wp)].
  - assert (R : step str_of parse_float parse_cpx flt_of_int np_cast array_items dt 0 (run dt 0 ops) ORead = run dt 0 ops)
      by (cbn; destruct (run dt 0 ops); reflexivity).
    rewrite R, IH by auto. unfold last_assigned. split; intros ((a & p & b & E & M & L) & Ne); split; auto.
    + exists a, p, (b ++ [ORead]). rewrite E, <- app_assoc. repeat split; auto. intros q I. apply in_app_or in I. destruct I as [I|[I|[]]]; [eauto|discriminate].
    + destruct b as [|y b] using rev_ind.
      * apply app_inj_tail in E. destruct E as (_ & E). discriminate.
      * clear IHb. replace (a ++ OAssign p :: b ++ [y]) with ((a ++ OAssign p :: b) ++ [y]) in E by (rewrite <- app_assoc; reflexivity).
        apply app_inj_tail in E. destruct E as (E & <-). exists a, p, b. repeat split; auto. intros q I. apply L. apply in_or_app; auto.
  - pose proof (fun w => C11_assign_iff dt p w Wp) as A. cbn [step]. unfold set_value. destruct (assigned dt 0 p) as [w|e] eqn:Ap.
    + pose proof (proj1 (A w) eq_refl) as Mw. cbn [fst Nat.eqb andb].
      assert (Eq : forall v0, last_assigned dt (ops ++ [OAssign p]) v0 <-> v0 = w).
      { intros v0. split.
        - intros (a & q & b & E & M & L). destruct b as [|y b] using rev_ind.
          + apply app_inj_tail in E. destruct E as (_ & E). inversion E; subst. apply A in M. congruence.
          + clear IHb. replace (a ++ OAssign q :: b ++ [y]) with ((a ++ OAssign q :: b) ++ [y]) in E by (rewrite <- app_assoc; reflexivity).
            apply app_inj_tail in E. destruct E as (_ & <-). edestruct (L p); eauto. apply in_or_app; right; left; auto.
        - intros ->. exists ops, p, []. repeat split; auto. }
      rewrite Eq. pose proof (is_empty_spec dt w) as Ie. destruct (is_empty dt w); cbn [fst].
      * split; [discriminate|]. intros (-> & N). destruct N. apply Ie. auto.
      * split; [intros [= <-]; split; auto; intros K; apply Ie in K; discriminate|intros (-> & _); auto].
    + cbn [fst]. rewrite IH by auto. assert (Np : forall w, ~ means dt p w) by (intros w M; apply A in M; discriminate).
      unfold last_assigned. split; intros ((a & q & b & E & M & L) & Ne); split; auto.
      * exists a, q, (b ++ [OAssign p]). rewrite E, <- app_assoc. repeat split; auto. intros q' I. apply in_app_or in I. destruct I as [I|[I|[]]]; [eauto|inversion I; subst; auto].
      * destruct b as [|y b] using rev_ind.
        -- apply app_inj_tail in E. destruct E as (_ & E). inversion E; subst. edestruct Np; eauto.
        -- clear IHb. replace (a ++ OAssign q :: b ++ [y]) with ((a ++ OAssign q :: b) ++ [y]) in E by (rewrite <- app_assoc; reflexivity).
           apply app_inj_tail in E. destruct E as (E & _). exists a, q, b. repeat split; auto. intros q' I. apply L. apply in_or_app; auto.
Qed.

(** [has_value] of the node after any history: the last value that could be assigned is not the empty one *)
Theorem C11_has_value : forall dt nm ops, (forall o, In o ops -> scalar_op o) ->
  (has_value (Meta nm (KLeaf dt 0) []) (NLeaf (run dt 0 ops)) = true <-> exists v, last_assigned dt ops v /\ ~ empty dt v).
Proof.
  intros dt nm ops S. cbn. pose proof (fun v => C11_state dt ops v S) as H. destruct (run dt 0 ops) as [v|].
  - split; [intros _; exists v; apply H; auto|reflexivity].
  - split; [discriminate|]. intros (v & K). apply H in K. discriminate.
Qed.
(** what is read: the last value that could be assigned, otherwise the empty value *)
Theorem C11_read : forall dt ops, (forall o, In o ops -> scalar_op o) ->
  let v := snd (get_value dt 0 (run dt 0 ops)) in
  (last_assigned dt ops v /\ ~ empty dt v) \/ (empty dt v /\ forall w, last_assigned dt ops w -> empty dt w).
Proof.
  intros dt ops S v. pose proof (fun v => C11_state dt ops v S) as H. unfold v. destruct (run dt 0 ops) as [w|]; cbn.
  - left. apply H. auto.
  - right. split; [apply is_empty_spec; destruct dt; vm_compute; reflexivity|].
    intros w L. apply is_empty_spec. destruct (is_empty dt w) eqn:E; auto. exfalso.
    assert (None = Some w) by (apply H; split; auto; rewrite <- is_empty_spec; congruence). discriminate.
Qed.
(** reads change nothing: same state without them *)
Theorem C11_reads_irrelevant : forall dt ops, run dt 0 ops = run dt 0 (filter (fun o => match o with ORead => false | _ => true end) ops).
Proof.
  intros dt ops. unfold PrimModel.run. generalize (@None value). induction ops as [|o ops IH]; intros st; auto.
  destruct o; cbn [filter fold_left]; rewrite IH; auto. cbn. destruct st; auto.
Qed.
(** 1+D nodes: whatever is done to them, they have a value iff there is something in the array, whether it was ever read or not *)
Theorem C11_arrays : forall dt nd nm st, has_value (Meta nm (KLeaf dt (S nd)) []) (NLeaf (fst (get_value dt (S nd) st))) =
  has_value (Meta nm (KLeaf dt (S nd)) []) (NLeaf st) /\
  (has_value (Meta nm (KLeaf dt (S nd)) []) (NLeaf st) = true <-> exists v, st = Some v /\ 0 < value_len v).
Proof.
  intros dt nd nm st. destruct st as [v|]; cbn.
  - split; auto. pose proof (Nat.ltb_lt 0 (value_len v)) as Lt. unfold leaf_has_value, leaf_size. split; [intros Hv; exists v; split; [auto|apply Lt, Hv]|intros (w & [= <-] & H); apply Lt, H].
  - split; [destruct dt; reflexivity|]. split; [discriminate|intros (w & E & _); discriminate].
Qed.
(** a lazy IDS cannot be assigned to *)
Theorem C11_lazy : forall dt nd st p, set_value str_of parse_float parse_cpx flt_of_int np_cast array_items true dt nd st p = (st, Err ValueErr).
Proof. reflexivity. Qed.
End Props.
Print Assumptions C11_assign_iff.
Print Assumptions C11_state.
Print Assumptions C11_has_value.
Print Assumptions C11_read.
Print Assumptions C11_reads_irrelevant.
Print Assumptions C11_arrays.

(** Of all 64-bit patterns only one is the empty float. *)
Theorem C11_empty_float : forall f, (0 <= f < 2 ^ 64)%Z -> (empty FLT (VFlt f) <-> f = EMPTY_FLOAT).
Proof. intros f R. rewrite <- is_empty_spec. exact (feq_empty f R). Qed.
Print Assumptions C11_empty_float.

Definition no_str (p : pyval) : str := strs "?".
Definition small (z : Z) : option flt := if (z =? 0)%Z then Some 0%Z else None.
Example C11_example :
  let r := run no_str (fun _ => None) (fun _ => None) small (fun _ _ => Err TypeErr) (fun _ => []) in
  r INT 0 [OAssign (PInt 4); ORead; OAssign PNone] = Some (VInt 4) /\
  r INT 0 [OAssign (PInt 4); OAssign (PInt (-999999999)); ORead] = None /\
  r STR 0 [OAssign (PStr (strs "a")); OAssign (PNode STR 0 (VStr []))] = None /\
  r FLT 0 [OAssign (PInt 0)] = Some (VFlt 0%Z) /\
  (forall o, In o [OAssign (PInt 4); ORead; OAssign PNone] -> scalar_op o).
Proof.
  repeat (split; [vm_compute; reflexivity|]). intros o [<-|[<-|[<-|[]]]]; unfold scalar_op; auto; right; eexists; (split; [reflexivity|split; discriminate]).
Qed.

(** The comparison is with the value after conversion: a float that is not the empty integer but is truncated to it unsets the
    node (-999999999.5 here). *)
Theorem C11_assigned_value_refuted : exists f, ~ holds_int (PFlt f) EMPTY_INT /\ feqz f EMPTY_INT = false /\
  forall so pf pc fi nc ai, run so pf pc fi nc ai INT 0 [OAssign (PInt 4); OAssign (PFlt f)] = None.
Proof.
  exists 13965043853216972800%Z. split; [intros H; inversion H|]. split; [vm_compute; reflexivity|]. intros. vm_compute. reflexivity.
Qed.
Print Assumptions C11_assigned_value_refuted.
(** The text "nan" is a float for Python, but cannot be assigned: the check whether to log a message fails. *)
Theorem C11_text_refuted : exists pf s f, pf s = Some f /\
  forall so pc fi nc ai st, set_value so pf pc fi nc ai false FLT 0 st (PFlt f) = (Some (VFlt f), Ok tt) /\
                            set_value so pf pc fi nc ai false FLT 0 st (PStr s) = (st, Err TypeErr).
Proof.
  exists (fun _ => Some 9221120237041090560%Z), (strs "nan"), 9221120237041090560%Z. split; [reflexivity|]. intros. split; reflexivity.
Qed.
Print Assumptions C11_text_refuted.
(** A string data node assigned to a list of strings is taken apart into characters, a Python string is not. *)
Theorem C11_string_node_refuted : exists s, forall so pf pc fi nc ai,
  assigned so pf pc fi nc ai STR 1 (PStr s) = Ok (VStrs [s]) /\ assigned so pf pc fi nc ai STR 1 (PNode STR 0 (VStr s)) <> Ok (VStrs [s]).
Proof. exists (strs "ab"). intros. split; [reflexivity|discriminate]. Qed.
Print Assumptions C11_string_node_refuted.
