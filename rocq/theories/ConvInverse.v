(** Conversion: the operations on single values that special rules apply, and their inverses. *)
From Verif Require Import Base TreeModel TreeSpec TreeProofs PrimModel ConvModel.
Local Open Scope nat_scope.

(** ** Rows of an array *)
Definition sized {A} (sh : list nat) (d : list A) : Prop := sh <> [] /\ prod sh = length d.
Lemma drop_first_row : forall A k r (d : list A), prod (S k :: r) = length d ->
  drop_rows (fst (first_row (S k :: r) d)) (snd (first_row (S k :: r) d)) = (S k :: r, d).
Proof.
  intros A k r d H. cbn [first_row fst snd drop_rows]. replace (S (S k) - 1) with (S k) by lia. f_equal.
  change (prod (S k :: r)) with (S k * prod r) in H. rewrite H, firstn_app, Nat.sub_diag, firstn_all. simpl. apply app_nil_r.
Qed.
Lemma drop_last_row : forall A k r (d : list A), prod (S k :: r) = length d ->
  drop_rows (fst (last_row (S k :: r) d)) (snd (last_row (S k :: r) d)) = (S k :: r, d).
Proof.
  intros A k r d H. cbn [last_row fst snd drop_rows]. replace (S (S k) - 1) with (S k) by lia. f_equal.
  change (prod (S k :: r)) with (S k * prod r) in H. rewrite H, firstn_app, Nat.sub_diag, firstn_all. simpl. apply app_nil_r.
Qed.
Lemma row_size : forall A k r (d : list A), prod (S k :: r) = length d ->
  prod (fst (first_row (S k :: r) d)) = length (snd (first_row (S k :: r) d)) /\ prod (fst (last_row (S k :: r) d)) = length (snd (last_row (S k :: r) d)).
Proof.
  intros A k r d H. change (prod (S k :: r)) with (S k * prod r) in H. cbn [first_row last_row fst snd].
  change (prod (S (S k) :: r)) with (S (S k) * prod r). rewrite !app_length, firstn_length, skipn_length. nia.
Qed.
From Verif Require Import ConvSpec.
Local Open Scope nat_scope.
Lemma first_row_spec : forall A k r (d : list A), prod (S k :: r) = length d -> with_row 0 (S k :: r) d (fst (first_row (S k :: r) d)) (snd (first_row (S k :: r) d)).
Proof.
  intros A k r d H. exists (S k), r. split; auto. split; [lia|]. split; auto. split; [|split].
  - destruct (row_size A k r d H) as (E & _). symmetry. exact E.
  - intros j L. cbn [first_row snd]. rewrite nth_error_app1; auto. rewrite <- H. exact L.
  - intros j L. cbn [first_row snd]. change (prod (S k :: r)) with (S k * prod r) in H. rewrite H, nth_error_app2 by lia. replace (length d + j - length d) with j by lia. simpl.
    revert j L. generalize (prod r). clear. intros n j L. revert d j L. induction n as [|n IH]; intros d j L; [lia|]. destruct d as [|x d], j; simpl; auto. apply IH. lia.
Qed.
Lemma nth_skipn : forall A n (d : list A) j, nth_error (skipn n d) j = nth_error d (n + j).
Proof. induction n as [|n IH]; intros d j; simpl; auto. destruct d; auto. destruct j; auto. Qed.
Lemma last_row_spec : forall A k r (d : list A), prod (S k :: r) = length d -> with_row k (S k :: r) d (fst (last_row (S k :: r) d)) (snd (last_row (S k :: r) d)).
Proof.
  intros A k r d H. exists (S k), r. split; auto. split; [lia|]. split; auto. split; [|split].
  - destruct (row_size A k r d H) as (_ & E). symmetry. exact E.
  - intros j L. cbn [last_row snd]. rewrite nth_error_app1; auto. rewrite <- H. exact L.
  - intros j L. cbn [last_row snd]. change (prod (S k :: r)) with (S k * prod r) in H. rewrite H, nth_error_app2 by lia. replace (length d + j - length d) with j by lia.
    rewrite nth_skipn. f_equal. lia.
Qed.
(** a row that is the same as an earlier one is determined *)
Lemma list_ext : forall A (l l' : list A), length l = length l' -> (forall j, j < length l -> nth_error l j = nth_error l' j) -> l = l'.
Proof.
  induction l as [|x l IH]; intros [|y l'] L H; simpl in L; try discriminate; auto. f_equal.
  - specialize (H 0). simpl in H. specialize (H ltac:(lia)). congruence.
  - apply IH; [lia|]. intros j J. apply (H (S j)). simpl. lia.
Qed.
Lemma with_row_fun : forall A i sh (d : list A) s1 d1 s2 d2, with_row i sh d s1 d1 -> with_row i sh d s2 d2 -> s1 = s2 /\ d1 = d2.
Proof.
  intros A i sh d s1 d1 s2 d2 (k & r & -> & I & -> & L1 & A1 & B1) (k' & r' & E & _ & -> & L2 & A2 & B2). injection E as <- <-. split; auto.
  apply list_ext; [congruence|]. rewrite L1. intros j J. destruct (Nat.lt_ge_cases j (k * prod r)) as [L|L].
  - rewrite A1, A2; auto.
  - replace j with (k * prod r + (j - k * prod r)) by lia. rewrite B1, B2; auto; simpl in J; lia.
Qed.
Lemma with_row_back : forall A i sh (d : list A) s1 d1, prod sh = length d -> with_row i sh d s1 d1 -> drop_rows s1 d1 = (sh, d).
Proof.
  intros A i sh d s1 d1 H (k & r & -> & I & -> & L1 & A1 & B1). simpl drop_rows. replace (k - 0) with k by lia. f_equal. change (prod (k :: r)) with (k * prod r) in H.
  apply list_ext; [rewrite firstn_length, L1; simpl; lia|]. rewrite firstn_length. intros j J.
  rewrite <- A1 by lia. clear - J. assert (L : j < k * prod r) by lia. clear J. revert d1 j L. generalize (k * prod r). induction n as [|n IH]; intros d1 j L; [lia|]. destruct d1 as [|x d1], j; simpl; auto. apply IH. lia.
Qed.

Theorem repeat_first_spec : forall v w, (exists dt nd, val_ok dt nd v) -> is_array v = true -> (repeat_first v = Some w <-> closed_up v w).
Proof.
  intros v w (dt & nd & VO) AR. assert (X : forall A (sh : list nat) (d : list A), sh <> [] -> prod sh = length d -> (match sh with S _ :: _ => exists sh' d', first_row sh d = (sh', d') /\ with_row 0 sh d sh' d' | _ => forall sh' d', ~ with_row 0 sh d sh' d' end)).
  { intros A sh d N P. destruct sh as [|[|k] r]; [congruence| |].
    - intros sh' d' (k & r' & E & L & _). injection E as <- <-. lia.
    - exists (fst (first_row (S k :: r) d)), (snd (first_row (S k :: r) d)). split; [reflexivity|]. apply first_row_spec; auto. }
  destruct VO; try discriminate AR; specialize (X _ sh d H H0); destruct sh as [|[|k] r]; try congruence; unfold repeat_first, add_row;
    try (split; [discriminate|intros C; inversion C; subst; exfalso; eapply X; eauto]);
    destruct X as (sh' & d' & E & R); rewrite E; (split; [intros [= <-]; constructor; auto|intros C; inversion C; subst; match goal with Y : with_row _ _ _ ?a ?b |- Some (_ sh' d') = Some (_ ?a ?b) => destruct (with_row_fun _ _ _ _ _ _ _ _ R Y) as (-> & ->); reflexivity end]).
Qed.
Theorem repeat_last_spec : forall v w, (exists dt nd, val_ok dt nd v) -> is_array v = true -> (repeat_last v = Some w <-> last_again v w).
Proof.
  intros v w (dt & nd & VO) AR.
  destruct VO; try discriminate AR; (destruct sh as [|[|k] r]; [congruence| |]); unfold repeat_last, add_row;
    try (split; [discriminate|intros C; inversion C]);
    (pose proof (last_row_spec _ k r d H0) as R; destruct (last_row (S k :: r) d) as [sh' d'] eqn:E; cbn [fst snd] in R;
     split; [intros [= <-]; constructor; auto|intros C; inversion C; subst; match goal with Y : with_row _ _ _ ?a ?b |- Some (_ sh' d') = Some (_ ?a ?b) => destruct (with_row_fun _ _ _ _ _ _ _ _ R Y) as (-> & ->); reflexivity end]).
Qed.
Theorem drop_last_spec : forall v w, (exists dt nd, val_ok dt nd v) -> closed_up v w \/ last_again v w -> drop_last w = Some v.
Proof.
  intros v w (dt & nd & VO) H. assert (H' : exists i, match v, w with VIntA s d, VIntA s' d' => with_row i s d s' d' | VFltA s d, VFltA s' d' => with_row i s d s' d' | VCpxA s d, VCpxA s' d' => with_row i s d s' d' | _, _ => False end).
  { destruct H as [H|H]; inversion H; eauto. }
  destruct H' as (i & H').
  destruct VO; destruct w; try contradiction; pose proof (with_row_back _ _ _ _ _ _ H1 H') as B; destruct H' as (k & r & -> & L & -> & _); unfold drop_last; rewrite B; reflexivity.
Qed.

(** ** Signs *)
Lemma fneg_fneg : forall f, fneg (fneg f) = f.
Proof. intros. unfold fneg. rewrite Z.lxor_assoc, Z.lxor_nilpotent, Z.lxor_0_r. reflexivity. Qed.
Lemma fneg_low : forall f n, (0 <= n < 63)%Z -> Z.testbit (fneg f) n = Z.testbit f n.
Proof.
  intros f n H. unfold fneg. rewrite Z.lxor_spec, Z.pow2_bits_false by lia. apply xorb_false_r.
Qed.
Lemma fneg_spec : forall f, opp_flt f (fneg f).
Proof.
  intros f. split; [|split].
  - unfold f_neg, fneg. rewrite Z.lxor_spec, Z.pow2_bits_true by lia. apply xorb_true_r.
  - unfold f_exp. apply Z.bits_inj'. intros n Hn. rewrite !Z.land_spec. destruct (Z_lt_ge_dec n 11) as [L|L].
    + rewrite !Z.shiftr_spec by lia. rewrite fneg_low by lia. reflexivity.
    + rewrite Z.ones_spec_high by lia. rewrite !andb_false_r. reflexivity.
  - unfold f_man. apply Z.bits_inj'. intros n Hn. rewrite !Z.land_spec. destruct (Z_lt_ge_dec n 52) as [L|L].
    + rewrite fneg_low by lia. reflexivity.
    + rewrite Z.ones_spec_high by lia. rewrite !andb_false_r. reflexivity.
Qed.
Lemma wrap32_id : forall z, int32 z -> wrap32 z = z.
Proof. intros z H. unfold int32 in H. unfold wrap32. rewrite Z.mod_small; lia. Qed.
Lemma wrap32_neg : forall z, int32 z -> opp_int z (wrap32 (- z)) /\ int32 (wrap32 (- z)) /\ wrap32 (- wrap32 (- z)) = z.
Proof.
  intros z H. destruct (Z.eq_dec z (- 2 ^ 31)) as [->|N].
  - vm_compute. repeat split; auto; discriminate.
  - assert (I : int32 (- z)) by (unfold int32 in *; lia). rewrite (wrap32_id (- z) I). split; [left; reflexivity|]. split; auto. rewrite Z.opp_involutive. apply wrap32_id; auto.
Qed.
Theorem negate_spec : forall v dt nd, val_ok dt nd v -> dt <> STR -> ints32 v ->
  exists w, negate v = Some w /\ opposite v w /\ negate w = Some v /\ val_ok dt nd w /\ ints32 w.
Proof.
  intros v dt nd VO NS I. destruct VO; try congruence; simpl in *; eexists; (split; [reflexivity|]).
  - split; [constructor|]. simpl. rewrite Z.opp_involutive. repeat split; constructor.
  - split; [constructor; apply fneg_spec|]. simpl. rewrite fneg_fneg. repeat split; constructor.
  - split; [constructor; apply fneg_spec|]. simpl. rewrite !fneg_fneg. repeat split; constructor.
  - split; [apply op_inta; clear - I; induction I; simpl; constructor; auto; apply wrap32_neg; auto|]. simpl. split; [|split].
    + rewrite map_map. do 2 f_equal. clear - I. induction I; simpl; f_equal; auto. apply wrap32_neg; auto.
    + constructor; auto. rewrite map_length. auto.
    + clear - I. induction I; simpl; constructor; auto. apply wrap32_neg; auto.
  - split; [apply op_flta; clear; induction d; simpl; constructor; auto; apply fneg_spec|]. simpl. split; [|split; auto].
    + rewrite map_map. do 2 f_equal. clear. induction d; simpl; f_equal; auto. apply fneg_fneg.
    + constructor; auto. rewrite map_length. auto.
  - split; [apply op_cpxa; clear; induction d; simpl; constructor; auto; split; apply fneg_spec|]. simpl. split; [|split; auto].
    + rewrite map_map. do 2 f_equal. clear. induction d as [|[x y] d]; simpl; f_equal; auto. rewrite !fneg_fneg. reflexivity.
    + constructor; auto. rewrite map_length. auto.
Qed.

(** ** Connections *)
Lemma sides_spec : forall d d', sides d d' -> pairs_sub d = d' /\ split_sign d' = d /\ length d = 2 * length d'.
Proof. intros d d' H. induction H as [|l l' _ (A & B & C)|l l' _ (A & B & C)|l l' _ (A & B & C)]; simpl; [auto|..]; rewrite A, B, C; repeat split; lia. Qed.
Theorem connections_spec : forall v w, connections v w -> connections_3to4 v = Some w /\ connections_4to3 w = Some v /\ val_ok INT 2 v /\ val_ok INT 2 w.
Proof.
  intros v w H. destruct H as [a b d d' L S]. apply sides_spec in S as (A & B & C). unfold connections_3to4, connections_4to3.
  replace (2 * b / 2) with b by (rewrite Nat.mul_comm, Nat.div_mul; auto). rewrite A, B. repeat split.
  - apply (vo_inta [a; 2 * b]); [discriminate|]. simpl. lia.
  - apply (vo_inta [a; b]); [discriminate|]. simpl. lia.
Qed.
