(** Shared vocabulary: Python strings as lists of bytes, exceptions as values, and a few list facts.
    Nothing in this file models code in /repo. *)
From Coq Require Export String Ascii.
From Coq Require Export Arith NArith ZArith Bool Lia List.
From Coq Require Import ZifyBool ZifyNat ZifyN.
Export ListNotations.

(** Python [str]: a list of characters (bytes).  [strs] embeds Coq string literals. *)
Definition str := list ascii.
Definition strs (s : string) : str := list_ascii_of_string s.
Coercion strs : string >-> str.

Definition ascii_eqb := Ascii.eqb.
Fixpoint str_eqb (a b : str) : bool :=
  match a, b with
  | [], [] => true
  | x :: a', y :: b' => Ascii.eqb x y && str_eqb a' b'
  | _, _ => false
  end.

Lemma str_eqb_eq : forall a b, str_eqb a b = true <-> a = b.
Proof.
  induction a as [|x a IH]; destruct b as [|y b]; simpl; split; intros H; try congruence; auto.
  - apply andb_true_iff in H as [H1 H2]. apply Ascii.eqb_eq in H1. apply IH in H2. congruence.
  - inversion H; subst. rewrite Ascii.eqb_refl. simpl. apply IH. reflexivity.
Qed.

Lemma str_eqb_refl : forall a, str_eqb a a = true.
Proof. intros. apply str_eqb_eq. reflexivity. Qed.

Lemma str_eqb_neq : forall a b, str_eqb a b = false <-> a <> b.
Proof.
  intros a b. destruct (str_eqb a b) eqn:E.
  - apply str_eqb_eq in E. split; intros; congruence.
  - split; intros _; auto. intros ->. rewrite str_eqb_refl in E. congruence.
Qed.

Definition str_dec (a b : str) : {a = b} + {a <> b} := list_eq_dec ascii_dec a b.

(** Result of a Python call: a value or an exception of some class. *)
Inductive result (E A : Type) : Type := Ok (a : A) | Err (e : E).
Arguments Ok {E A} a.
Arguments Err {E A} e.

Definition rbind {E A B} (r : result E A) (f : A -> result E B) : result E B :=
  match r with Ok a => f a | Err e => Err e end.
Notation "'do' x <- r ; k" := (rbind r (fun x => k)) (at level 200, x pattern, r at level 100, k at level 200).

Fixpoint rmap {E A B} (f : A -> result E B) (l : list A) : result E (list B) :=
  match l with
  | [] => Ok []
  | a :: t => match f a with
              | Err e => Err e
              | Ok b => match rmap f t with Err e => Err e | Ok bs => Ok (b :: bs) end
              end
  end.

(** Association lists keyed by strings: Python dictionaries (insertion ordered). *)
Section Assoc.
  Context {V : Type}.
  Fixpoint alookup (k : str) (m : list (str * V)) : option V :=
    match m with
    | [] => None
    | (k', v) :: t => if str_eqb k k' then Some v else alookup k t
    end.
  Fixpoint aset (k : str) (v : V) (m : list (str * V)) : list (str * V) :=
    match m with
    | [] => [(k, v)]
    | (k', v') :: t => if str_eqb k k' then (k', v) :: t else (k', v') :: aset k v t
    end.
  Fixpoint aremove (k : str) (m : list (str * V)) : list (str * V) :=
    match m with
    | [] => []
    | (k', v') :: t => if str_eqb k k' then aremove k t else (k', v') :: aremove k t
    end.
  Definition akeys (m : list (str * V)) : list str := map fst m.

  Lemma alookup_aset_same : forall m k v, alookup k (aset k v m) = Some v.
  Proof.
    induction m as [|[k' v'] t IH]; intros; simpl.
    - now rewrite str_eqb_refl.
    - destruct (str_eqb k k') eqn:E; simpl; rewrite E; auto.
  Qed.

  Lemma alookup_aset_other : forall m k k2 v, k2 <> k -> alookup k2 (aset k v m) = alookup k2 m.
  Proof.
    induction m as [|[k' v'] t IH]; intros; simpl.
    - apply str_eqb_neq in H. now rewrite H.
    - destruct (str_eqb k k') eqn:E; simpl.
      + apply str_eqb_eq in E; subst. apply str_eqb_neq in H. now rewrite H.
      + destruct (str_eqb k2 k'); auto.
  Qed.

  Lemma alookup_aset : forall m k k2 v,
    alookup k2 (aset k v m) = if str_eqb k2 k then Some v else alookup k2 m.
  Proof.
    intros. destruct (str_eqb k2 k) eqn:E.
    - apply str_eqb_eq in E; subst. apply alookup_aset_same.
    - apply str_eqb_neq in E. now apply alookup_aset_other.
  Qed.

  Lemma alookup_aremove : forall m k k2,
    alookup k2 (aremove k m) = if str_eqb k2 k then None else alookup k2 m.
  Proof.
    induction m as [|[k' v'] t IH]; intros; simpl.
    - now destruct (str_eqb k2 k).
    - destruct (str_eqb k k') eqn:E; simpl.
      + rewrite IH. apply str_eqb_eq in E; subst. destruct (str_eqb k2 k') eqn:E2; auto.
      + destruct (str_eqb k2 k') eqn:E2.
        * apply str_eqb_eq in E2; subst. destruct (str_eqb k' k) eqn:E3; auto.
          apply str_eqb_eq in E3; subst. rewrite str_eqb_refl in E. congruence.
        * rewrite IH. reflexivity.
  Qed.

  Lemma alookup_In : forall m k v, alookup k m = Some v -> In (k, v) m.
  Proof.
    induction m as [|[k' v'] t IH]; simpl; intros; try congruence.
    destruct (str_eqb k k') eqn:E.
    - apply str_eqb_eq in E. inversion H; subst. auto.
    - right. auto.
  Qed.

  Lemma alookup_None_keys : forall m k, alookup k m = None <-> ~ In k (akeys m).
  Proof.
    induction m as [|[k' v'] t IH]; simpl; intros.
    - tauto.
    - destruct (str_eqb k k') eqn:E.
      + apply str_eqb_eq in E. split; intros; try congruence. exfalso; auto.
      + apply str_eqb_neq in E. rewrite IH. split; intros H; intros; [intros [C|C]; auto|].
        intros C. apply H. auto.
  Qed.

  Lemma alookup_NoDup_In : forall m k v, NoDup (akeys m) -> In (k, v) m -> alookup k m = Some v.
  Proof.
    induction m as [|[k' v'] t IH]; simpl; intros k v Hnd Hin; [tauto|].
    inversion Hnd; subst. destruct Hin as [Hin|Hin].
    - inversion Hin; subst. now rewrite str_eqb_refl.
    - destruct (str_eqb k k') eqn:E.
      + apply str_eqb_eq in E; subst. exfalso. apply H1. unfold akeys.
        apply in_map_iff. exists (k', v). auto.
      + auto.
  Qed.

  Lemma akeys_aset_In : forall m k k2 v, In k2 (akeys (aset k v m)) <-> k2 = k \/ In k2 (akeys m).
  Proof.
    induction m as [|[k' v'] t IH]; simpl; intros.
    - split; intros [H|H]; auto; tauto.
    - destruct (str_eqb k k') eqn:E; simpl.
      + apply str_eqb_eq in E; subst. intuition.
      + rewrite IH. intuition.
  Qed.
End Assoc.

(** Characters *)
Definition is_digit (c : ascii) : bool :=
  (N.leb 48 (N_of_ascii c) && N.leb (N_of_ascii c) 57)%bool.
Definition is_lower (c : ascii) : bool :=
  (N.leb 97 (N_of_ascii c) && N.leb (N_of_ascii c) 122)%bool.

(** Python's [str.split(sep)] for a one-character separator. *)
Fixpoint split_on (c : ascii) (s : str) : list str :=
  match s with
  | [] => [[]]
  | x :: t => if Ascii.eqb x c then [] :: split_on c t
              else match split_on c t with
                   | [] => [[x]]
                   | h :: r => (x :: h) :: r
                   end
  end.

Fixpoint join_with (c : ascii) (l : list str) : str :=
  match l with
  | [] => []
  | [h] => h
  | h :: t => h ++ c :: join_with c t
  end.

Lemma split_on_nonnil : forall c s, split_on c s <> [].
Proof. intros c s. destruct s as [|x t]; simpl; try congruence.
  destruct (Ascii.eqb x c); try congruence. destruct (split_on c t); congruence. Qed.

Lemma join_split : forall c s, join_with c (split_on c s) = s.
Proof.
  induction s as [|x t IH]; auto. cbn [split_on].
  destruct (Ascii.eqb x c) eqn:E.
  - apply Ascii.eqb_eq in E; subst x.
    pose proof (split_on_nonnil c t). destruct (split_on c t) as [|h r]; [congruence|].
    change (join_with c ([] :: h :: r)) with ([] ++ c :: join_with c (h :: r)). now rewrite IH.
  - pose proof (split_on_nonnil c t). destruct (split_on c t) as [|h r]; [congruence|].
    rewrite <- IH. destruct r; reflexivity.
Qed.

Lemma split_on_no_sep : forall c s p, In p (split_on c s) -> ~ In c p.
Proof.
  induction s as [|x t IH]; simpl; intros p H.
  - destruct H as [<-|[]]. auto.
  - destruct (Ascii.eqb x c) eqn:E.
    + destruct H as [<-|H]; auto.
    + apply Ascii.eqb_neq in E.
      destruct (split_on c t) as [|h r] eqn:S.
      * destruct H as [<-|[]]. simpl. intros [->|[]]. congruence.
      * destruct H as [<-|H].
        -- simpl. intros [->|Hin]; [congruence|]. apply (IH h); simpl; auto.
        -- apply IH. simpl; auto.
Qed.

Lemma split_on_app_sep : forall c a b, ~ In c a -> split_on c (a ++ c :: b) = a :: split_on c b.
Proof.
  induction a as [|x a IH]; simpl; intros b H.
  - now rewrite Ascii.eqb_refl.
  - assert (x <> c) by (intros ->; apply H; auto). apply Ascii.eqb_neq in H0. rewrite H0.
    rewrite IH; auto.
Qed.

Lemma split_on_single : forall c a, ~ In c a -> split_on c a = [a].
Proof.
  induction a as [|x a IH]; simpl; intros H; auto.
  assert (x <> c) by (intros ->; apply H; auto). apply Ascii.eqb_neq in H0. rewrite H0.
  rewrite IH; auto.
Qed.

Lemma split_join : forall c l, l <> [] -> (forall p, In p l -> ~ In c p) -> split_on c (join_with c l) = l.
Proof.
  induction l as [|h t IH]; intros Hne H; [congruence|].
  destruct t as [|h2 t].
  - simpl. apply split_on_single. apply H; simpl; auto.
  - change (join_with c (h :: h2 :: t)) with (h ++ c :: join_with c (h2 :: t)).
    rewrite split_on_app_sep by (apply H; simpl; auto).
    rewrite IH; auto; try congruence. intros; apply H; simpl; auto.
Qed.

(** Decimal numbers *)
Definition digit_val (c : ascii) : N := (N_of_ascii c - 48)%N.
Definition digit_chr (n : N) : ascii := ascii_of_N (n + 48).
Definition dec_value (s : str) : N := fold_left (fun a c => a * 10 + digit_val c)%N s 0%N.
Fixpoint show_fuel (fuel : nat) (n : N) : str :=
  match fuel with
  | O => [digit_chr (n mod 10)]
  | S f => if (n <? 10)%N then [digit_chr n] else show_fuel f (n / 10) ++ [digit_chr (n mod 10)]
  end.
Definition show_N (n : N) : str := show_fuel (N.size_nat n) n.

Lemma N_of_digit_chr : forall n, (n < 10)%N -> N_of_ascii (digit_chr n) = (n + 48)%N.
Proof. intros. unfold digit_chr. apply N_ascii_embedding. lia. Qed.

Lemma digit_chr_is_digit : forall n, (n < 10)%N -> is_digit (digit_chr n) = true.
Proof.
  intros. unfold is_digit. rewrite N_of_digit_chr by auto.
  apply andb_true_intro; split; apply N.leb_le; lia.
Qed.

Lemma digit_val_chr : forall n, (n < 10)%N -> digit_val (digit_chr n) = n.
Proof. intros. unfold digit_val. rewrite N_of_digit_chr by auto. lia. Qed.

Lemma show_fuel_digits : forall f n, forallb is_digit (show_fuel f n) = true.
Proof.
  induction f; intros; cbn [show_fuel].
  - cbn [forallb]. rewrite digit_chr_is_digit; auto. apply N.mod_lt; lia.
  - destruct (N.ltb_spec n 10).
    + cbn [forallb]. now rewrite digit_chr_is_digit.
    + rewrite forallb_app, IHf. cbn [forallb]. rewrite digit_chr_is_digit; auto. apply N.mod_lt; lia.
Qed.

Lemma show_N_digits : forall n, forallb is_digit (show_N n) = true.
Proof. intros. apply show_fuel_digits. Qed.

Lemma show_fuel_nonnil : forall f n, show_fuel f n <> [].
Proof.
  destruct f; intros; cbn [show_fuel]; try congruence.
  destruct (n <? 10)%N; try congruence. intros H. apply app_eq_nil in H. destruct H. congruence.
Qed.

Lemma show_N_nonnil : forall n, show_N n <> [].
Proof. intros. apply show_fuel_nonnil. Qed.

Lemma dec_value_snoc : forall s c, dec_value (s ++ [c]) = (dec_value s * 10 + digit_val c)%N.
Proof. intros. unfold dec_value. now rewrite fold_left_app. Qed.

Lemma size_nat_div2 : forall n, (n <> 0)%N -> N.size_nat n = S (N.size_nat (N.div2 n)).
Proof. intros n. destruct n as [|[p|p|]]; intros; simpl; auto; congruence. Qed.


Lemma show_fuel_value : forall f n, (n < 2 ^ N.of_nat f * 10)%N -> dec_value (show_fuel f n) = n.
Proof.
  induction f; intros n H; cbn [show_fuel].
  - simpl in H. unfold dec_value. cbn [fold_left]. rewrite N.mod_small by lia.
    rewrite digit_val_chr by lia. lia.
  - destruct (N.ltb_spec n 10).
    + unfold dec_value. cbn [fold_left]. rewrite digit_val_chr by auto. lia.
    + rewrite dec_value_snoc, IHf.
      * rewrite digit_val_chr by (apply N.mod_lt; lia).
        pose proof (N.div_mod n 10). lia.
      * apply N.div_lt_upper_bound; [lia|].
        rewrite Nat2N.inj_succ, N.pow_succ_r' in H. lia.
Qed.

Lemma size_nat_bound : forall n, (n < 2 ^ N.of_nat (N.size_nat n))%N.
Proof.
  intros [|p]; [reflexivity|]. cbn [N.size_nat].
  induction p as [p IH|p IH|]; cbn [Pos.size_nat]; try rewrite Nat2N.inj_succ, N.pow_succ_r'; try lia.
Qed.

Lemma show_N_value : forall n, dec_value (show_N n) = n.
Proof.
  intros. unfold show_N. apply show_fuel_value. pose proof (size_nat_bound n). lia.
Qed.

Lemma show_N_inj : forall a b, show_N a = show_N b -> a = b.
Proof. intros a b H. rewrite <- (show_N_value a), <- (show_N_value b). now rewrite H. Qed.

(** nth_error facts used throughout *)
Lemma nth_error_firstn : forall {A} n i (l : list A), i < n -> nth_error (firstn n l) i = nth_error l i.
Proof.
  induction n; intros; [lia|]. destruct l; destruct i; simpl; auto. apply IHn; lia.
Qed.
