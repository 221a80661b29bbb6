(** C64: operators with data nodes. *)
From Verif Require Import Base OperModel.

(** ** Specification: the same expression with the values of the nodes, without any nodes *)
Section Spec.
Variable V : Type.
Variable prim : bop -> V -> V -> result exn V.
Variable prim1 : uop -> V -> result exn V.
Variable item : V -> V -> result exn V.
Fixpoint plain (vals : list (str * V)) (e : expr V) : result exn V :=
  match e with
  | Const _ v => Ok v
  | Attr _ a => match alookup a vals with Some v => Ok v | None => Err NoAttribute end
  | Bin _ o a b => do x <- plain vals a; do y <- plain vals b; prim o x y
  | Un _ u a => do x <- plain vals a; prim1 u x
  | Item _ a i => do x <- plain vals a; do y <- plain vals i; item x y
  end.
End Spec.

Section Oper.
Variable V : Type.
Variable class_of : V -> cls.
Variable prim : bop -> V -> V -> result exn V.
Variable prim1 : uop -> V -> result exn V.
Variable prim_in : V -> V -> result exn bool.
Variable item : V -> V -> result exn V.
Variable truth : V -> result exn bool.
Variable len : V -> nat.
Variable zero : V.
Variable format : V -> V -> kind -> result exn V.
Variable zero_d : V -> V.
Variable np_strings : bop -> V -> node V -> result exn V.
Variable elements : V -> list V.
Local Notation value := (OperModel.value V).
Local Notation unwrap := (OperModel.unwrap V).
Local Notation P := (OperModel.P V).
Local Notation N := (OperModel.N V).
Local Notation binop := (OperModel.binop V class_of prim format zero_d np_strings).
Local Notation eval := (OperModel.eval V class_of prim prim1 item format zero_d np_strings).
Local Notation getitem := (OperModel.getitem V item).
Local Notation unop := (OperModel.unop V prim1).

(** Comparing in the other direction gives the same ([v < w] and [w > v]). *)
Definition mirrored : Prop := forall v w,
  prim (Cmp Eq) w v = prim (Cmp Eq) v w /\ prim (Cmp Ne) w v = prim (Cmp Ne) v w /\
  prim (Cmp Gt) w v = prim (Cmp Lt) v w /\ prim (Cmp Ge) w v = prim (Cmp Le) v w.
Lemma mirror_ok : mirrored -> forall c v w, prim (Cmp (mirror c)) w v = prim (Cmp c) v w.
Proof. intros M c v w. destruct (M v w) as (A & B & C & D), (M w v) as (A' & B' & C' & D'). destruct c; cbn [mirror]; auto. Qed.

(** The applications [v op node] that Python or numpy do not leave to the node, or that the node does not do: formatting a str, and a
    numpy array or scalar on the left of a node that is not an array, or a numpy.bool_ on the left of one that is. *)
Definition excepted (o : bop) (x y : operand V) : bool :=
  match x, y with
  | OperModel.P _ v, OperModel.N _ n =>
    match class_of v, n_kind V n with
    | Text, _ => match o with Num Mod => true | _ => false end
    | (Array | Scalar), (Numeric0D | Strings) => true
    | NpBool, _ => true
    | _, _ => false
    end
  | _, _ => false
  end.

(** An operator with one or two nodes gives what it gives for their values. *)
Theorem C64_binary : mirrored -> forall o x y, excepted o x y = false -> binop o x y = prim o (unwrap x) (unwrap y).
Proof.
  intros Mi o [v|n] [w|m] Ex; try reflexivity. cbn [OperModel.binop OperModel.unwrap] in *. cbn [excepted] in Ex.
  unfold np_operator, reflected_wrapper, binary_wrapper, array_ufunc, handled. cbn [OperModel.unwrap].
  destruct (class_of v) eqn:C; destruct (n_kind V m) eqn:K; try discriminate Ex; cbn [andb];
    try reflexivity; destruct o as [c|[]]; try discriminate Ex; first [apply (mirror_ok Mi)|reflexivity].
Qed.
(** Exactly what happens in the other cases: numpy arrays and scalars see a node with one number as an array without dimensions; with a
    numpy.bool_ on the left of an array there is a TypeError. *)
Theorem C64_excepted : forall o v n,
  (class_of v = Array \/ class_of v = Scalar \/ class_of v = NpBool -> n_kind V n = Numeric0D -> binop o (P v) (N n) = prim o v (zero_d (value n))) /\
  (class_of v = NpBool -> n_kind V n = Arrays -> binop o (P v) (N n) = Err TypeErr) /\
  (class_of v = Text -> binop (Num Mod) (P v) (N n) = format v (value n) (n_kind V n)).
Proof.
  intros o v n. repeat split; cbn [OperModel.binop].
  - intros C K. unfold np_operator. rewrite K. destruct C as [C|[C|C]]; now rewrite C.
  - intros C K. rewrite C. unfold np_operator. rewrite K. unfold array_ufunc, handled. now rewrite C.
  - intros C. now rewrite C.
Qed.

(** The applications of operators that happen when an expression is evaluated. *)
Fixpoint applied (st : state V) (e : expr V) : list (bop * operand V * operand V) :=
  match e with
  | Bin _ o a b => applied st a ++ applied st b ++ match eval st a, eval st b with Ok x, Ok y => [(o, x, y)] | _, _ => [] end
  | Un _ u a => applied st a
  | Item _ a i => applied st a ++ applied st i
  | _ => []
  end.
Definition values (st : state V) : list (str * V) := map (fun p => (fst p, value (snd p))) st.
Lemma values_lookup : forall a st, alookup a (values st) = option_map value (alookup a st).
Proof. induction st as [|[b n] st IH]; cbn; auto. destruct (str_eqb a b); auto. Qed.
(** An expression with nodes in it has the value, or raises the exception, of the expression with the values of the nodes. *)
Theorem C64_expression : mirrored -> forall st e, (forall o x y, In (o, x, y) (applied st e) -> excepted o x y = false) ->
  rbind (eval st e) (fun x => Ok (unwrap x)) = plain V prim prim1 item (values st) e.
Proof.
  intros Mi st. induction e as [v|a|o a IHa b IHb|u a IHa|a IHa i IHi]; intros H; cbn [OperModel.eval plain applied] in *.
  - reflexivity.
  - rewrite values_lookup. destruct (alookup a st); reflexivity.
  - rewrite <- IHa by (intros; apply H, in_or_app; auto). destruct (eval st a) as [x|e]; [|reflexivity]. cbn [rbind].
    rewrite <- IHb by (intros; apply H, in_or_app; right; apply in_or_app; auto). destruct (eval st b) as [y|e]; [|reflexivity]. cbn [rbind].
    rewrite C64_binary; auto; [|apply H, in_or_app; right; apply in_or_app; right; now left]. now destruct (prim o (unwrap x) (unwrap y)).
  - rewrite <- IHa by auto. destruct (eval st a) as [[v|n]|e]; [| |reflexivity]; cbn [rbind OperModel.unop OperModel.unwrap]; unfold unary_wrapper; now destruct (prim1 u _).
  - rewrite <- IHa by (intros; apply H, in_or_app; auto). destruct (eval st a) as [x|e]; [|reflexivity]. cbn [rbind].
    rewrite <- IHi by (intros; apply H, in_or_app; auto). destruct (eval st i) as [y|e]; [|reflexivity]. cbn [rbind]. destruct x as [v|n]; cbn [OperModel.getitem OperModel.unwrap]; now destruct (item _ _).
Qed.

(** ** bool *)
Local Notation bool_of := (OperModel.bool_of V prim truth len zero).
(** A node is true when its value is, for numbers and strings. *)
Theorem C64_bool : forall n, (forall v, rbind (prim (Cmp Ne) v zero) truth = truth v) ->
  (n_kind V n = Strings -> truth (value n) = Ok (negb (Nat.eqb (len (value n)) 0))) -> n_kind V n <> Arrays -> bool_of (N n) = truth (value n).
Proof.
  intros n Hz Hs K. cbn [OperModel.bool_of]. destruct (n_kind V n) eqn:E; [apply Hz|now rewrite Hs|contradiction].
Qed.
(** An array is true when it is not empty. *)
Theorem C64_bool_array : forall n, n_kind V n = Arrays -> bool_of (N n) = Ok (negb (Nat.eqb (len (value n)) 0)).
Proof. intros n K. cbn [OperModel.bool_of]. now rewrite K. Qed.

(** ** in *)
Local Notation contains := (OperModel.contains V class_of prim prim_in truth format zero_d np_strings elements).
(** [y in node] is [y in node.value]; [node in container] is [node.value in container] for containers that compare their elements. *)
Theorem C64_in_node : forall n y, contains (N n) y = prim_in (value n) (unwrap y).
Proof. reflexivity. Qed.
Fixpoint some_equal (l : list V) (w : V) : result exn bool :=
  match l with [] => Ok false | e :: l => do r <- prim (Cmp Eq) e w; do b <- truth r; if (b : bool) then Ok true else some_equal l w end.
Theorem C64_in_list : mirrored -> forall v n, class_of v <> Text -> (forall e, In e (elements v) -> excepted (Cmp Eq) (P e) (N n) = false) ->
  contains (P v) (N n) = some_equal (elements v) (value n).
Proof.
  intros Mi v n C H. cbn [OperModel.contains]. replace (match class_of v with Text => Err TypeErr | _ => any_equal V class_of prim truth format zero_d np_strings (elements v) (N n) end)
    with (any_equal V class_of prim truth format zero_d np_strings (elements v) (N n)) by (destruct (class_of v); congruence).
  induction (elements v) as [|e l IH]; [reflexivity|]. cbn [any_equal some_equal]. rewrite C64_binary; auto; [|apply H; now left]. cbn [OperModel.unwrap].
  destruct (prim (Cmp Eq) e (value n)) as [r|]; [|reflexivity]. cbn [rbind]. destruct (truth r) as [[]|]; try reflexivity. cbn [rbind]. apply IH. intros; apply H; now right.
Qed.

(** ** Assignment *)
Variable cast : kind -> V -> V -> result exn V.
Variable is_default : V -> V -> bool.
Variable out_cast : V -> V -> result exn V.
Local Notation exec := (OperModel.exec V class_of prim prim1 item format zero_d np_strings cast is_default out_cast).
Local Notation Augment := (OperModel.Augment V).
Local Notation Assign := (OperModel.Assign V).
Local Notation Local_ := (OperModel.Local V).
(** Other nodes keep their values; when there is no node of this name nothing happens. *)
Theorem C64_others : forall st s a, a <> match s with OperModel.Assign _ n _ | OperModel.Augment _ n _ _ | OperModel.Local _ n _ _ => n end -> alookup a (fst (exec st s)) = alookup a st.
Proof.
  assert (X : forall st name v a, a <> name -> alookup a (fst (assign V cast is_default st name v)) = alookup a st).
  { intros st name v a Na. unfold assign. destruct (alookup name st); [|reflexivity]. destruct (set_value _ _ _ _ _); [|reflexivity]. cbn [fst]. now apply alookup_aset_other. }
  intros st [name e|name k e|name k e] a Na; cbn [OperModel.exec].
  - destruct (eval st e); [now apply X|reflexivity].
  - destruct (alookup name st) as [n|]; [|reflexivity]. destruct (eval st e) as [y|]; [|reflexivity].
    destruct (inplace _ _ _ _ _ _ _ _ _ _) as [n' [v|]]; [rewrite X by auto|cbn [fst]]; now apply alookup_aset_other.
  - destruct (alookup name st) as [n|]; [|reflexivity]. destruct (eval st e) as [y|]; [|reflexivity].
    destruct (inplace _ _ _ _ _ _ _ _ _ _) as [n' [v|]]; cbn [fst]; now apply alookup_aset_other.
Qed.

(** For numbers and strings [ids.x op= e] is [ids.x = ids.x op e], and with a local variable the node is not changed. *)
Lemma aset_same : forall (st : state V) a n, alookup a st = Some n -> aset a n st = st.
Proof.
  induction st as [|[b m] st IH]; intros a n H; cbn in *; [discriminate|]. destruct (str_eqb a b) eqn:E.
  - injection H as ->. apply str_eqb_eq in E. now subst.
  - now rewrite IH.
Qed.
Theorem C64_augment : forall st name n k e, alookup name st = Some n -> n_kind V n <> Arrays ->
  exec st (Augment name k e) = exec st (Assign name (Bin V (Num k) (Attr V name) e)) /\
  fst (exec st (Local_ name k e)) = st.
Proof.
  intros st name n k e L K. cbn [OperModel.exec OperModel.eval]. rewrite L. cbn [rbind]. destruct (eval st e) as [y|x]; [|auto]. cbn [rbind].
  assert (I : inplace V class_of prim format zero_d np_strings out_cast k n y = (n, binop (Num k) (N n) y)) by (unfold inplace; destruct (n_kind V n); congruence).
  rewrite I. rewrite (aset_same _ _ _ L). destruct (binop (Num k) (N n) y); auto.
Qed.
(** For arrays the array is changed in place: the result is put in as [out_cast] says (same shape, and a type that can be cast safely), and
    an exception leaves the node as it is. *)
Theorem C64_augment_array : forall st name n k e y, alookup name st = Some n -> n_kind V n = Arrays -> n_lazy V n = false -> k <> DivMod -> eval st e = Ok y ->
  (forall v, out_cast (value n) v = Err TypeErr \/ exists c, out_cast (value n) v = Ok c /\ cast Arrays (n_default V n) c = Ok c) ->
  match y with OperModel.P _ v => match class_of v with Array | Scalar | Number => true | Text | Plain | NpBool => false end | OperModel.N _ _ => true end = true ->
  match prim (Num k) (value n) (unwrap y) with
  | Err x => exec st (Augment name k e) = (st, Some x)
  | Ok r => match out_cast (value n) r with
            | Err x => exec st (Augment name k e) = (st, Some x)
            | Ok c => snd (exec st (Augment name k e)) = None /\ option_map value (alookup name (fst (exec st (Augment name k e)))) = Some c
            end
  end.
Proof.
  intros st name n k e y L K Lz D Ev Oc Hy. cbn [OperModel.exec]. rewrite L, Ev. unfold inplace. rewrite K.
  assert (A : array_ufunc V class_of prim (Num k) (N n) y = prim (Num k) (value n) (unwrap y)).
  { unfold array_ufunc, handled. destruct y as [v|m]; cbn [OperModel.unwrap] in *; [|reflexivity]. now rewrite Hy. }
  assert (E0 : match k with DivMod => (n, binop (Num k) (N n) y) | _ => match rbind (array_ufunc V class_of prim (Num k) (N n) y) (out_cast (value n)) with
     | Ok v => ({| n_kind := Arrays; n_val := Some v; n_default := n_default V n; n_lazy := n_lazy V n |}, Ok v) | Err e => (n, Err e) end end =
     match rbind (prim (Num k) (value n) (unwrap y)) (out_cast (value n)) with
     | Ok v => ({| n_kind := Arrays; n_val := Some v; n_default := n_default V n; n_lazy := n_lazy V n |}, Ok v) | Err e => (n, Err e) end).
  { rewrite A. destruct k; auto. contradiction. }
  rewrite E0. destruct (prim (Num k) (value n) (unwrap y)) as [r|x]; cbn [rbind]; [|now rewrite (aset_same _ _ _ L)].
  destruct (out_cast (value n) r) as [c|x] eqn:Ec; [|now rewrite (aset_same _ _ _ L)].
  destruct (Oc r) as [O|(c' & O & Ca)]; [congruence|]. rewrite Ec in O. injection O as <-. unfold assign. rewrite alookup_aset_same. unfold set_value. cbn [n_lazy n_kind n_default]. rewrite Lz, Ca. cbn [rbind].
  cbn [fst snd]. rewrite alookup_aset_same. auto.
Qed.
(** With a local variable for the node the array in the structure is changed as well, also one that was loaded lazily; for a lazily loaded
    one [ids.x op= e] does the same and raises.  Operands that are not numbers, arrays or nodes are refused. *)
Definition accepted (y : operand V) : bool :=
  match y with OperModel.P _ v => match class_of v with Array | Scalar | Number => true | Text | Plain | NpBool => false end | OperModel.N _ _ => true end.
Theorem C64_local_array : forall st name n k e y, alookup name st = Some n -> n_kind V n = Arrays -> k <> DivMod -> eval st e = Ok y ->
  match (if accepted y then rbind (prim (Num k) (value n) (unwrap y)) (out_cast (value n)) else Err TypeErr) with
  | Err x => exec st (Local_ name k e) = (st, Some x) /\ exec st (Augment name k e) = (st, Some x)
  | Ok c => snd (exec st (Local_ name k e)) = None /\ option_map value (alookup name (fst (exec st (Local_ name k e)))) = Some c /\
            (n_lazy V n = true -> exec st (Augment name k e) = (fst (exec st (Local_ name k e)), Some ReadOnly))
  end.
Proof.
  intros st name n k e y L K D Ev. cbn [OperModel.exec]. rewrite L, Ev.
  assert (A : array_ufunc V class_of prim (Num k) (N n) y = if accepted y then prim (Num k) (value n) (unwrap y) else Err TypeErr).
  { unfold array_ufunc, handled, accepted. destruct y as [v|m]; cbn [OperModel.unwrap andb]; [|reflexivity]. now destruct (class_of v). }
  assert (I : inplace V class_of prim format zero_d np_strings out_cast k n y =
     match (if accepted y then rbind (prim (Num k) (value n) (unwrap y)) (out_cast (value n)) else Err TypeErr) with
     | Ok v => ({| n_kind := Arrays; n_val := Some v; n_default := n_default V n; n_lazy := n_lazy V n |}, Ok v) | Err x => (n, Err x) end).
  { unfold inplace. rewrite K, A. destruct k; try contradiction; now destruct (accepted y). }
  rewrite I. destruct (if accepted y then rbind (prim (Num k) (value n) (unwrap y)) (out_cast (value n)) else Err TypeErr) as [c|x].
  - cbn [fst snd]. rewrite alookup_aset_same. repeat split. intros Lz. unfold assign. rewrite alookup_aset_same. unfold set_value. cbn [n_lazy]. now rewrite Lz.
  - now rewrite (aset_same _ _ _ L).
Qed.
End Oper.

(** ** Findings, with numbers, strings and arrays of numbers *)
Inductive pv := I (z : Z) | F (halves : Z) (* a float: [halves]/2 *) | B (b : bool) (* numpy.bool_ *) | T (s : str) | A (l : list Z) (* int array *) | AF (halves : list Z) (* float array *).
Definition pv_class (v : pv) : cls := match v with I _ | F _ => Number | B _ => NpBool | T _ => Text | A _ | AF _ => Array end.
Definition halves (v : pv) : option Z := match v with I z => Some (2 * z)%Z | F h => Some h | B b => Some (if b then 2 else 0)%Z | _ => None end.
Definition arr (v : pv) : option (list Z) := match v with A l => Some (map (Z.mul 2) l) | AF l => Some l | _ => None end.
Definition is_int (v : pv) : bool := match v with I _ | A _ | B _ => true | _ => false end.
Definition mk (i : bool) (h : Z) : pv := if i then I (h / 2) else F h.
Definition mka (i : bool) (l : list Z) : pv := if i then A (map (fun h => h / 2)%Z l) else AF l.
Definition num_op (k : nop) (a b : Z) : Z := match k with Add => (a + b) | Sub => (a - b) | Mul => (a * b / 2) | _ => 0 end%Z.
Definition cmp_op (c : cmp) (a b : Z) : bool := match c with Eq => a =? b | Ne => negb (a =? b) | Lt => a <? b | Le => a <=? b | Gt => b <? a | Ge => b <=? a end%Z.
Definition pv_prim (o : bop) (v w : pv) : result exn pv :=
  match o, halves v, halves w, arr v, arr w with
  | Cmp c, Some a, Some b, _, _ => Ok (B (cmp_op c a b))
  | Num k, Some a, Some b, _, _ => Ok (mk (is_int v && is_int w) (num_op k a b))
  | Num k, Some a, _, _, Some l => Ok (mka (is_int v && is_int w) (map (num_op k a) l))
  | Num k, _, Some b, Some l, _ => Ok (mka (is_int v && is_int w) (map (fun a => num_op k a b) l))
  | _, _, _, _, _ => Err (Raised 0)
  end.
Definition pv_truth (v : pv) : result exn bool :=
  match v with
  | I z | F z => Ok (negb (z =? 0)%Z) | B b => Ok b | T s => Ok (negb (Nat.eqb (length s) 0))
  | A [z] | AF [z] => Ok (negb (z =? 0)%Z) | A [] | AF [] => Ok false | _ => Err (Raised 1) (* ValueError: ambiguous *)
  end.
Definition pv_len (v : pv) : nat := match v with A l | AF l => length l | T s => length s | _ => 0 end.
Fixpoint prefix (p s : str) : bool := match p, s with [], _ => true | a :: p, b :: s => Ascii.eqb a b && prefix p s | _, _ => false end.
Fixpoint infix (p s : str) : bool := prefix p s || match s with [] => false | _ :: s => infix p s end.
Definition pv_in (v w : pv) : result exn bool := match v, w with T s, T p => Ok (infix p s) | _, _ => Err TypeErr end.
Definition pv_item (v w : pv) : result exn pv := match v, w with A l, I i => Ok (I (nth (Z.to_nat i) l 0%Z)) | _, _ => Err TypeErr end.
Definition pv_format (v w : pv) (k : kind) : result exn pv := Ok v.
Definition pv_strings (o : bop) (v : pv) (n : node pv) : result exn pv := Err TypeErr.
Definition pv_elements (v : pv) : list pv := match v with A l => map I l | _ => [] end.
(** arrays with the element type of the default; other values are taken over *)
Definition pv_cast (k : kind) (d v : pv) : result exn pv :=
  match k, d, v with Arrays, A _, AF l => Ok (A (map (fun h => h / 2)%Z l)) | Arrays, AF _, A l => Ok (AF (map (Z.mul 2) l)) | _, _, _ => Ok v end.
Definition pv_default (d v : pv) : bool := match d, v with I a, I b => (a =? b)%Z | _, _ => false end.
(** a float result is not stored in an int array *)
Definition pv_out (d v : pv) : result exn pv :=
  match d, v with A _, AF _ => Err TypeErr | AF _, A l => Ok (AF (map (Z.mul 2) l)) | _, _ => Ok v end.
Definition pv_binop := binop pv pv_class pv_prim pv_format (fun v => v) pv_strings.
Definition pv_exec := exec pv pv_class pv_prim (fun _ v => Ok v) pv_item pv_format (fun v => v) pv_strings pv_cast pv_default pv_out.
Definition node_of (k : kind) (d v : pv) (lazy : bool) : node pv := {| n_kind := k; n_val := Some v; n_default := d; n_lazy := lazy |}.

(** The hypothesis of the theorems above. *)
Lemma pv_mirrored : mirrored pv pv_prim.
Proof.
  assert (H : forall c v w, pv_prim (Cmp (match c with Lt => Gt | Le => Ge | Gt => Lt | Ge => Le | c => c end)) w v = pv_prim (Cmp c) v w).
  { intros c v w. unfold pv_prim. destruct (halves v), (halves w), (arr v), (arr w); auto; destruct c; cbn; rewrite 1?(Z.eqb_sym z z0); auto. }
  intros v w. repeat split; [apply (H Eq)|apply (H Ne)|apply (H Lt)|apply (H Le)].
Qed.
Example C64_expression_ex :
  let st := [("a"%string : str, node_of Arrays (A []) (A [1; 2]%Z) false); ("x"%string : str, node_of Numeric0D (I (-999999999)) (I 3) false)] in
  let e := Bin pv (Num Sub) (Attr pv "x"%string) (Bin pv (Num Mul) (Const pv (F 3)) (Attr pv "a"%string)) in
  eval pv pv_class pv_prim (fun _ v => Ok v) pv_item pv_format (fun v => v) pv_strings st e = Ok (OperModel.P pv (AF [3; 0]%Z)) /\
  forallb (fun p => negb (excepted pv pv_class (fst (fst p)) (snd (fst p)) (snd p))) (applied pv pv_class pv_prim (fun _ v => Ok v) pv_item pv_format (fun v => v) pv_strings st e) = true.
Proof. split; vm_compute; reflexivity. Qed.

(** [bool] of an array is not that of its value. *)
Theorem C64_bool_refuted : exists n m,
  bool_of pv pv_prim pv_truth pv_len (I 0) (OperModel.N pv n) = Ok true /\ pv_truth (value pv n) = Ok false /\
  bool_of pv pv_prim pv_truth pv_len (I 0) (OperModel.N pv m) = Ok true /\ pv_truth (value pv m) = Err (Raised 1).
Proof. exists (node_of Arrays (A []) (A [0%Z]) false), (node_of Arrays (A []) (A [1; 2]%Z) false). vm_compute. auto. Qed.
(** [ids.name in "text"] raises TypeError, for the value there is an answer. *)
Theorem C64_in_refuted : exists n v b, pv_in v (value pv n) = Ok b /\
  contains pv pv_class pv_prim pv_in pv_truth pv_format (fun v => v) pv_strings pv_elements (OperModel.P pv v) (OperModel.N pv n) = Err TypeErr.
Proof. exists (node_of Strings (T []) (T "core"%string) false), (T "core_profiles"%string), true. vm_compute. auto. Qed.
(** [np.True_ * node] raises TypeError for an array, [node * np.True_] does not. *)
Theorem C64_npbool_refuted : exists n v r, pv_binop (Num Mul) (OperModel.N pv n) (OperModel.P pv v) = Ok r /\ pv_prim (Num Mul) v (value pv n) = Ok r /\
  pv_binop (Num Mul) (OperModel.P pv v) (OperModel.N pv n) = Err TypeErr.
Proof. exists (node_of Arrays (A []) (A [1; 2]%Z) false), (B true), (A [1; 2]%Z). vm_compute. auto. Qed.
(** [ids.a += 0.5] raises TypeError for an int array, [ids.a = ids.a + 0.5] stores a value. *)
Theorem C64_augment_refuted : exists st name e, snd (pv_exec st (Augment pv name Add e)) = Some TypeErr /\
  snd (pv_exec st (Assign pv name (Bin pv (Num Add) (Attr pv name) e))) = None /\
  fst (pv_exec st (Assign pv name (Bin pv (Num Add) (Attr pv name) e))) <> st.
Proof.
  exists [("a"%string : str, node_of Arrays (A []) (A [1; 2]%Z) false)], ("a"%string : str), (Const pv (F 3)). repeat split; try reflexivity. intro E. vm_compute in E. discriminate E.
Qed.
(** [a = ids.a; a += 1] changes an array in the IDS, and also one of a lazily loaded IDS; [ids.a += 1] then raises but has changed it. *)
Theorem C64_lazy_refuted : exists st name e, (forall a n, alookup a st = Some n -> n_lazy pv n = true) /\
  snd (pv_exec st (Augment pv name Add e)) = Some ReadOnly /\ fst (pv_exec st (Augment pv name Add e)) <> st /\ fst (pv_exec st (Local pv name Add e)) <> st.
Proof.
  exists [("a"%string : str, node_of Arrays (A []) (A [1; 2]%Z) true)], ("a"%string : str), (Const pv (I 1)). repeat split; try reflexivity; try (intro E; vm_compute in E; discriminate E).
  intros a n H. cbn [alookup] in H. destruct (str_eqb a _); [|discriminate H]. now injection H as <-.
Qed.
Example C64_augment_ex :
  let st := [("a"%string : str, node_of Arrays (AF []) (AF [1; 2]%Z) false)] in
  pv_exec st (Augment pv "a"%string Add (Const pv (I 1))) = ([("a"%string : str, node_of Arrays (AF []) (AF [3; 4]%Z) false)], None).
Proof. reflexivity. Qed.
Print Assumptions C64_binary.
Print Assumptions C64_excepted.
Print Assumptions C64_expression.
Print Assumptions C64_bool.
Print Assumptions C64_bool_array.
Print Assumptions C64_in_node.
Print Assumptions C64_in_list.
Print Assumptions C64_others.
Print Assumptions C64_augment.
Print Assumptions C64_augment_array.
Print Assumptions C64_local_array.
Print Assumptions C64_bool_refuted.
Print Assumptions C64_in_refuted.
Print Assumptions C64_npbool_refuted.
Print Assumptions C64_augment_refuted.
Print Assumptions C64_lazy_refuted.
