(** Lemmas about the content hash. *)
From Coq Require Import ZifyBool ZifyNat ZifyN Permutation.
From Verif Require Import Base TreeModel TreeSpec TreeProofs TreeProofs2 TreeProofs4 HashModel HashSpec.

(** ** Bytes *)
Lemma le_length : forall k z, length (le k z) = k.
Proof. induction k; simpl; auto. Qed.

Lemma ascii_of_N_inj : forall a b, (a < 256)%N -> (b < 256)%N -> ascii_of_N a = ascii_of_N b -> a = b.
Proof. intros a b Ha Hb E. rewrite <- (N_ascii_embedding a Ha), <- (N_ascii_embedding b Hb). congruence. Qed.

Lemma le_inj : forall k x y, (0 <= x < 256 ^ Z.of_nat k)%Z -> (0 <= y < 256 ^ Z.of_nat k)%Z -> le k x = le k y -> x = y.
Proof.
  induction k as [|k IH]; intros x y Hx Hy E.
  - change (256 ^ Z.of_nat 0)%Z with 1%Z in *. lia.
  - cbn [le] in E. injection E as E1 E2.
    pose proof (Z.mod_pos_bound x 256 ltac:(lia)) as Bx. pose proof (Z.mod_pos_bound y 256 ltac:(lia)) as By.
    apply ascii_of_N_inj in E1; [|lia|lia].
    rewrite Nat2Z.inj_succ, Z.pow_succ_r in * by lia.
    apply IH in E2.
    + rewrite (Z.div_mod x 256), (Z.div_mod y 256) by lia. lia.
    + split; [apply Z.div_pos; lia|apply Z.div_lt_upper_bound; lia].
    + split; [apply Z.div_pos; lia|apply Z.div_lt_upper_bound; lia].
Qed.

Lemma to_bytes_length : forall k z s, to_bytes k z = Ok s -> length s = k.
Proof. intros k z s. unfold to_bytes. destruct (_ && _); intros E; inversion E. apply le_length. Qed.
Lemma to_bytes_inj : forall k x y s, to_bytes k x = Ok s -> to_bytes k y = Ok s -> x = y.
Proof.
  intros k x y s. unfold to_bytes. destruct ((0 <=? x) && (x <? 256 ^ Z.of_nat k))%Z eqn:E1; [|discriminate].
  destruct ((0 <=? y) && (y <? 256 ^ Z.of_nat k))%Z eqn:E2; [|discriminate]. intros A B.
  apply (le_inj k); [lia|lia|congruence].
Qed.
Lemma mod_signed_inj : forall m x y, (0 < m)%Z -> (- m <= 2 * x < m)%Z -> (- m <= 2 * y < m)%Z -> (x mod m = y mod m)%Z -> x = y.
Proof.
  intros m x y Hm Hx Hy E. pose proof (Z.div_mod x m ltac:(lia)). pose proof (Z.div_mod y m ltac:(lia)).
  assert (x - y = m * (x / m - y / m))%Z by lia.
  assert (- m < x - y < m)%Z by lia. assert (x / m - y / m = 0)%Z by nia. nia.
Qed.
Lemma to_bytes_signed_inj : forall k x y s, to_bytes_signed k x = Ok s -> to_bytes_signed k y = Ok s -> x = y.
Proof.
  intros k x y s. unfold to_bytes_signed. set (m := (256 ^ Z.of_nat k)%Z).
  assert (Hm : (0 < m)%Z) by (apply Z.pow_pos_nonneg; lia).
  destruct ((- m <=? 2 * x) && (2 * x <? m))%Z eqn:E1; [|discriminate].
  destruct ((- m <=? 2 * y) && (2 * y <? m))%Z eqn:E2; [|discriminate]. intros A B.
  apply (mod_signed_inj m); [lia|lia|lia|]. apply (le_inj k); fold m; [apply Z.mod_pos_bound; lia|apply Z.mod_pos_bound; lia|congruence].
Qed.
Lemma pack_q_length : forall n s, pack_q n = Ok s -> length s = 8.
Proof. intros n s. unfold pack_q. destruct (_ <? _)%Z; intros E; inversion E. reflexivity. Qed.
Lemma pack_q_inj : forall x y s, pack_q x = Ok s -> pack_q y = Ok s -> x = y.
Proof.
  intros x y s. unfold pack_q. destruct (Z.of_nat x <? 2 ^ 63)%Z eqn:E1; [|discriminate].
  destruct (Z.of_nat y <? 2 ^ 63)%Z eqn:E2; [|discriminate]. intros A B.
  assert (Z.of_nat x = Z.of_nat y); [|lia]. 
  apply (le_inj 8); [| |congruence]; change (256 ^ Z.of_nat 8)%Z with (2 ^ 64)%Z; lia.
Qed.

Lemma app_split : forall {A} (a b c d : list A), length a = length c -> a ++ b = c ++ d -> a = c /\ b = d.
Proof.
  induction a as [|x a IH]; intros b [|y c] d Hl E; simpl in *; try discriminate; auto.
  injection E as -> E. apply IH in E; [|lia]. destruct E as (-> & ->). auto.
Qed.

(** Concatenation of pieces of a fixed length *)
Lemma flat_fixed : forall {A} (f : A -> str) k l1 l2, k > 0 -> (forall x, length (f x) = k) -> flat_map f l1 = flat_map f l2 ->
  Forall2 (fun a b => f a = f b) l1 l2.
Proof.
  intros A f k l1. induction l1 as [|x l1 IH]; intros [|y l2] Hk Hf E; simpl in *.
  - constructor.
  - exfalso. apply (f_equal (@length ascii)) in E. rewrite app_length, Hf in E. simpl in E. lia.
  - exfalso. apply (f_equal (@length ascii)) in E. rewrite app_length, Hf in E. simpl in E. lia.
  - apply app_split in E; [|rewrite !Hf; auto]. destruct E as (E1 & E2). constructor; auto.
Qed.
Lemma flat_inj : forall {A} (f : A -> str) k (P : A -> Prop) l1 l2, k > 0 -> (forall x, length (f x) = k) ->
  (forall x y, P x -> P y -> f x = f y -> x = y) -> Forall P l1 -> Forall P l2 -> flat_map f l1 = flat_map f l2 -> l1 = l2.
Proof.
  intros A f k P l1 l2 Hk Hf Hi P1 P2 E. apply (flat_fixed f k) in E; auto. induction E; auto.
  inversion P1; inversion P2; subst. f_equal; auto.
Qed.
Lemma concat_fixed : forall (l1 l2 : list str) k t1 t2, (forall x, In x l1 -> length x = k) -> (forall x, In x l2 -> length x = k) ->
  length l1 = length l2 -> concat l1 ++ t1 = concat l2 ++ t2 -> l1 = l2 /\ t1 = t2.
Proof.
  induction l1 as [|x l1 IH]; intros [|y l2] k t1 t2 H1 H2 Hl E; simpl in *; try discriminate; auto.
  rewrite <- !app_assoc in E. apply app_split in E; [|rewrite (H1 x), (H2 y); auto]. destruct E as (-> & E).
  apply (IH l2 k) in E as (-> & ->); auto.
Qed.

(** ** Fortran order *)
Lemma f_indices_in : forall sh k, k < prod sh -> In k (f_indices sh).
Proof.
  induction sh as [|n rest IH]; intros k Hk; cbn [f_indices]; [left; cbn in Hk; lia|].
  change (prod (n :: rest)) with (n * prod rest) in Hk.
  destruct (Nat.eq_dec (prod rest) 0) as [E|E]; [rewrite E in Hk; lia|].
  apply in_flat_map. exists (k mod prod rest). split; [apply IH; apply Nat.mod_upper_bound; auto|].
  apply in_map_iff. exists (k / prod rest). split.
  - pose proof (Nat.div_mod k (prod rest) E). nia.
  - apply in_seq. split; [apply Nat.le_0_l|]. simpl. apply Nat.div_lt_upper_bound; auto. rewrite Nat.mul_comm. exact Hk.
Qed.
Lemma f_order_inj : forall {A} (d0 : A) sh d d', length d = prod sh -> length d' = prod sh ->
  f_order d0 sh d = f_order d0 sh d' -> d = d'.
Proof.
  intros A d0 sh d d' H1 H2 E. apply (nth_ext _ _ d0 d0); [congruence|]. intros k Hk.
  unfold f_order in E. assert (G : forall i, In i (f_indices sh) -> nth i d d0 = nth i d' d0) by (intros i Hi; exact (ext_in_map E i Hi)).
  apply G. apply f_indices_in. lia.
Qed.
Lemma f_indices_lt : forall sh k, In k (f_indices sh) -> k < prod sh.
Proof.
  induction sh as [|n rest IH]; intros k H; cbn [f_indices] in H; [cbn in *; lia|].
  change (prod (n :: rest)) with (n * prod rest).
  apply in_flat_map in H as (o & Ho & H). apply in_map_iff in H as (i & <- & Hi). apply in_seq in Hi. apply IH in Ho. nia.
Qed.
Lemma f_order_Forall : forall {A} (P : A -> Prop) d0 sh d, length d = prod sh -> Forall P d -> Forall P (f_order d0 sh d).
Proof.
  intros A P d0 sh d Hl HP. apply Forall_forall. intros x Hx. unfold f_order in Hx. apply in_map_iff in Hx as (i & <- & Hi).
  rewrite Forall_forall in HP. apply HP, nth_In. rewrite Hl. apply f_indices_lt. auto.
Qed.

Section H.
Variable H : str -> str.
Hypothesis H8 : forall s, length (H s) = 8.

Lemma rmap_pack_len : forall sh l, rmap pack_q sh = Ok l -> length l = length sh /\ (forall x, In x l -> length x = 8).
Proof.
  induction sh as [|n sh IH]; simpl; intros l E.
  - inversion E. simpl. tauto.
  - destruct (pack_q n) eqn:E1; [|discriminate]. destruct (rmap pack_q sh) eqn:E2; [|discriminate]. inversion E; subst.
    destruct (IH _ eq_refl) as (A & B). simpl. split; auto. intros x [<-|Hx]; auto. eapply pack_q_length; eauto.
Qed.
Lemma rmap_pack_inj : forall sh sh' l, rmap pack_q sh = Ok l -> rmap pack_q sh' = Ok l -> sh = sh'.
Proof.
  induction sh as [|n sh IH]; simpl; intros [|n' sh'] l E E'; simpl in *; auto.
  - inversion E; subst. destruct (pack_q n'); [|discriminate]. destruct (rmap pack_q sh'); discriminate.
  - inversion E'; subst. destruct (pack_q n); [|discriminate]. destruct (rmap pack_q sh); discriminate.
  - destruct (pack_q n) eqn:E1; [|discriminate]. destruct (rmap pack_q sh) eqn:E2; [|discriminate].
    destruct (pack_q n') eqn:E3; [|discriminate]. destruct (rmap pack_q sh') eqn:E4; [|discriminate].
    inversion E; subst. inversion E'; subst. f_equal; [eapply pack_q_inj; eauto|eapply IH; eauto].
Qed.

Lemma enc_array_inj : forall sh sh' d d' s, length sh = length sh' -> enc_array sh d = Ok s -> enc_array sh' d' = Ok s ->
  sh = sh' /\ d = d'.
Proof.
  intros sh sh' d d' s Hl E E'. unfold enc_array, rbind in *.
  destruct (to_bytes 1 (Z.of_nat (length sh))) eqn:E1; [|discriminate].
  destruct (rmap pack_q sh) eqn:E2; [|discriminate].
  rewrite <- Hl in E'. rewrite E1 in E'. destruct (rmap pack_q sh') eqn:E3; [|discriminate].
  inversion E; subst. inversion E' as [E4]. apply app_inv_head in E4.
  destruct (rmap_pack_len _ _ E2) as (A & B). destruct (rmap_pack_len _ _ E3) as (C & D).
  symmetry in E4. apply (concat_fixed _ _ 8) in E4 as (<- & ->); auto; [|congruence]. split; auto. eapply rmap_pack_inj; eauto.
Qed.

Lemma mem_int_inj : forall x y, (- 2 ^ 31 <= x < 2 ^ 31)%Z -> (- 2 ^ 31 <= y < 2 ^ 31)%Z -> mem_int x = mem_int y -> x = y.
Proof.
  intros x y Hx Hy E. unfold mem_int in E. apply le_inj in E.
  - apply (mod_signed_inj (2 ^ 32)) in E; auto; lia.
  - change (256 ^ Z.of_nat 4)%Z with (2 ^ 32)%Z. apply Z.mod_pos_bound. lia.
  - change (256 ^ Z.of_nat 4)%Z with (2 ^ 32)%Z. apply Z.mod_pos_bound. lia.
Qed.
Lemma flt_inj : forall x y, is_flt x -> is_flt y -> le 8 x = le 8 y -> x = y.
Proof. intros x y Hx Hy E. apply (le_inj 8) in E; auto; change (256 ^ Z.of_nat 8)%Z with (2 ^ 64)%Z; auto. Qed.
Lemma cpx_inj : forall r i r' i', is_flt r -> is_flt i -> is_flt r' -> is_flt i' -> le 8 r ++ le 8 i = le 8 r' ++ le 8 i' -> r = r' /\ i = i'.
Proof.
  intros r i r' i' A B C D E. apply app_split in E; [|rewrite !le_length; auto]. destruct E as (E1 & E2).
  split; apply flt_inj; auto.
Qed.

(** Strings of two lists with the same digests are equal or give a collision. *)
Lemma strs_equal_or : forall (l1 l2 : list str), Forall2 (fun a b => H a = H b) l1 l2 ->
  l1 = l2 \/ exists x y, In x l1 /\ In y l2 /\ x <> y /\ H x = H y.
Proof.
  induction 1 as [|x y l1 l2 E HF IH]; auto. destruct (str_dec x y) as [->|N].
  - destruct IH as [->|(a & b & A & B & C)]; auto. right. exists a, b. simpl. auto.
  - right. exists x, y. simpl. auto.
Qed.

Lemma enc_value_inj : forall dt nd v w s, val_ok dt nd v -> val_ok dt nd w -> storable v -> storable w ->
  enc_value H v = Ok s -> enc_value H w = Ok s ->
  v = w \/ exists l1 l2 x y, v = VStrs l1 /\ w = VStrs l2 /\ In x l1 /\ In y l2 /\ x <> y /\ H x = H y.
Proof.
  intros dt nd v w s Hv Hw Sv Sw E E'.
  destruct Hv.
  - inversion Hw; subst; cbn [enc_value] in *; try congruence; left; congruence.
  - inversion Hw; subst; cbn [enc_value] in *.
    + left. f_equal. eapply to_bytes_signed_inj; eauto.
    + exfalso; match goal with X : length _ = 0 |- _ => apply length_zero_iff_nil in X end; congruence.
  - inversion Hw; subst; cbn [enc_value storable] in *.
    + left. f_equal. apply flt_inj; congruence.
    + exfalso; match goal with X : length _ = 0 |- _ => apply length_zero_iff_nil in X end; congruence.
  - inversion Hw; subst; cbn [enc_value storable] in *.
    + left. assert (X : r = r0 /\ i = i0) by (apply cpx_inj; try tauto; congruence). destruct X as (-> & ->). auto.
    + exfalso; match goal with X : length _ = 0 |- _ => apply length_zero_iff_nil in X end; congruence.
  - inversion Hw; subst; cbn [enc_value] in *. unfold rbind in *.
    destruct (to_bytes 8 (Z.of_nat (length l))) eqn:E1; [|discriminate].
    destruct (to_bytes 8 (Z.of_nat (length l0))) eqn:E2; [|discriminate].
    inversion E; subst. inversion E' as [E3]. apply app_split in E3; [|rewrite (to_bytes_length _ _ _ E1), (to_bytes_length _ _ _ E2); auto].
    destruct E3 as (_ & E3). symmetry in E3. apply (flat_fixed H 8) in E3; [|lia|auto].
    apply strs_equal_or in E3 as [->|(x & y & A & B & C & D)]; auto.
    right. exists l, l0, x, y. auto 10.
  - inversion Hw as [|z0| | | |sh' d' Hne Hp Ed En| |]; subst; cbn [enc_value storable] in *.
    + exfalso; match goal with X : _ = length sh |- _ => symmetry in X; apply length_zero_iff_nil in X end; congruence.
    + destruct (enc_array_inj sh sh' _ _ _ ltac:(congruence) E E') as (<- & Ed'). left. f_equal.
      apply (flat_inj mem_int 4 (fun z => - 2 ^ 31 <= z < 2 ^ 31)%Z) in Ed'; [|lia|..].
      * eapply f_order_inj; [| |exact Ed']; congruence.
      * intros; apply le_length.
      * exact mem_int_inj.
      * apply f_order_Forall; auto; congruence.
      * apply f_order_Forall; auto; congruence.
  - inversion Hw as [|z0| | | | |sh' d' Hne Hp Ed En|]; subst; cbn [enc_value storable] in *.
    + exfalso; match goal with X : _ = length sh |- _ => symmetry in X; apply length_zero_iff_nil in X end; congruence.
    + destruct (enc_array_inj sh sh' _ _ _ ltac:(congruence) E E') as (<- & Ed'). left. f_equal.
      apply (flat_inj mem_flt 8 is_flt) in Ed'; [|lia|..].
      * eapply f_order_inj; [| |exact Ed']; congruence.
      * intros; apply le_length.
      * exact flt_inj.
      * apply f_order_Forall; auto; congruence.
      * apply f_order_Forall; auto; congruence.
  - inversion Hw as [|z0| | | | | |sh' d' Hne Hp Ed En]; subst; cbn [enc_value storable] in *.
    + exfalso; match goal with X : _ = length sh |- _ => symmetry in X; apply length_zero_iff_nil in X end; congruence.
    + destruct (enc_array_inj sh sh' _ _ _ ltac:(congruence) E E') as (<- & Ed'). left. f_equal.
      apply (flat_inj mem_cpx 16 (fun c => is_flt (fst c) /\ is_flt (snd c))) in Ed'; [|lia|..].
      * eapply f_order_inj; [| |exact Ed']; congruence.
      * intros x; unfold mem_cpx. rewrite app_length, !le_length. auto.
      * intros [a b] [c d0] (A & B) (C & D) X. unfold mem_cpx in X. simpl in *. apply cpx_inj in X as (-> & ->); auto.
      * apply f_order_Forall; auto; congruence.
      * apply f_order_Forall; auto; congruence.
Qed.
End H.
