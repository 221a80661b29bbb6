(** Specification for C36: nearest arrays of structures and the graph of shared dimensions, read off the data dictionary. *)
From Verif Require Import Base TreeModel NcMetaModel.

(** [below m names parent lv p c a n]: inside m (whose own path is names, nearest array of structures parent, lv arrays of structures
    around) there is a node c with path p, nearest enclosing array of structures a, inside n arrays of structures. *)
Inductive below : meta -> path -> option path -> nat -> path -> meta -> option path -> nat -> Prop :=
| bl_child : forall nm k cs names parent lv c, In c cs -> below (Meta nm k cs) names parent lv (names ++ [mname c]) c parent lv
| bl_struct : forall nm k cs names parent lv c p c' a n, In c cs -> mkind c = KStruct ->
    below c (names ++ [mname c]) parent lv p c' a n -> below (Meta nm k cs) names parent lv p c' a n
| bl_aos : forall nm k cs names parent lv c p c' a n, In c cs -> mkind c = KAoS ->
    below c (names ++ [mname c]) (Some (names ++ [mname c])) (S lv) p c' a n -> below (Meta nm k cs) names parent lv p c' a n.
(** node of the IDS *)
Definition in_ids (m : meta) (p : path) (c : meta) (a : option path) (n : nat) : Prop := below m [] None 0 p c a n.

(** q is the quantity that p is an error bar of *)
Definition error_bar (p q : path) : Prop :=
  exists r b, q = r ++ [b] /\ (p = r ++ [b ++ strs "_error_upper"] \/ p = r ++ [b ++ strs "_error_lower"]).
Definition inside (p q : path) : Prop := exists x r, q = p ++ x :: r.

Section Graph.
Variable at_ : path -> nattr.
Variable m : meta.

(** dimension i of quantity p is dimension j of quantity q, says the data dictionary *)
Inductive shares : axis -> axis -> Prop :=
| sh_error : forall p c a n q i, in_ids m p c a n -> i < ndim c -> error_bar p q -> shares (p, i) (q, i)
| sh_coordinate : forall p c a n q others i, in_ids m p c a n -> i < ndim c -> (forall b, ~ error_bar p b) ->
    n_refs (at_ p) i = q :: others -> ~ inside p q -> shares (p, i) (q, 0)
| sh_same_as : forall p c a n q i, in_ids m p c a n -> i < ndim c -> (forall b, ~ error_bar p b) ->
    n_refs (at_ p) i = [] -> n_same (at_ p) i = [q] -> shares (p, i) (q, i).

(** the letter of dimension i *)
Definition letter (i : nat) (x : ascii) : Prop := nth_error ["i"; "j"; "k"; "l"; "m"; "n"]%char i = Some x.
(** dimension i of quantity p is a dimension of its own, with this name *)
Inductive own_dim : axis -> str -> Prop :=
| od_inside : forall p c a n q others i, in_ids m p c a n -> i < ndim c -> (forall b, ~ error_bar p b) ->
    n_refs (at_ p) i = q :: others -> inside p q -> own_dim (p, i) (dotted q)
| od_plain : forall p c a, in_ids m p c a 0 -> 0 < ndim c -> (forall b, ~ error_bar p b) ->
    n_refs (at_ p) 0 = [] -> n_same (at_ p) 0 = [] -> mkind c <> KAoS -> ndim c = 1 -> own_dim (p, 0) (dotted p)
| od_letter : forall p c a n i x, in_ids m p c a n -> i < ndim c -> (forall b, ~ error_bar p b) ->
    n_refs (at_ p) i = [] -> n_same (at_ p) i = [] -> mkind c = KAoS \/ n + ndim c <> 1 -> letter i x -> own_dim (p, i) (dotted p ++ [":"%char; x]).

(** q can be used instead of p *)
Inductive alternative : path -> path -> Prop :=
| al_or : forall p c a n i main others q, in_ids m p c a n -> i < ndim c -> (forall b, ~ error_bar p b) ->
    n_refs (at_ p) i = main :: others -> ~ inside p main -> In q others -> alternative q main
| al_listed : forall main c a n q, in_ids m main c a n -> 0 < ndim c -> (forall b, ~ error_bar main b) -> In q (n_alts (at_ main)) -> alternative q main.

(** all sharing: also alternatives with a dimension of their own share the one of the main quantity *)
Definition takes (x y : axis) : Prop :=
  shares x y \/ (exists d, own_dim x d) /\ snd x = 0 /\ snd y = 0 /\ alternative (fst x) (fst y).
(** dimension x gets the name d *)
Inductive named_dim : axis -> str -> Prop :=
| nd_own : forall x d, own_dim x d -> (forall y, ~ takes x y) -> named_dim x d
| nd_takes : forall x y d, takes x y -> named_dim y d -> named_dim x d.
Inductive reaches : axis -> axis -> Prop :=
| rc_one : forall x y, takes x y -> reaches x y
| rc_more : forall x y z, takes x y -> reaches y z -> reaches x z.
End Graph.

(** ** Dictionaries whose coordinate references make sense *)
Section Good.
Variable at_ : path -> nattr.
Variable m : meta.
(** dimension snd x of quantity fst x exists *)
Definition axis_ok (x : axis) : Prop := exists c a n, in_ids m (fst x) c a n /\ snd x < ndim c.
Definition one_d (p : path) : Prop := exists c a n, in_ids m p c a n /\ ndim c = 1.
Record good_references : Prop := {
  g_ndim : forall p c a n, in_ids m p c a n -> ndim c <= 6;
  g_same : forall p c a n i, in_ids m p c a n -> i < ndim c -> length (n_same (at_ p) i) <= 1;
  (* shared dimensions exist *)
  g_target : forall x y, shares at_ m x y -> axis_ok y;
  (* a quantity that lists alternatives has a dimension of its own *)
  g_listed : forall p c a n, in_ids m p c a n -> 0 < ndim c -> (forall b, ~ error_bar p b) -> n_alts (at_ p) <> [] ->
             exists d, own_dim at_ m (p, ndim c - 1) d;
  (* alternatives and their main quantities are 1D, the main quantity has its own dimension, is no alternative itself and is the only one *)
  g_alt : forall q main, alternative at_ m q main -> one_d q /\ one_d main /\ (exists d, own_dim at_ m (main, 0) d) /\
          (forall main', ~ alternative at_ m main main') /\ (forall main', alternative at_ m q main' -> main' = main) /\
          (forall y, shares at_ m (q, 0) y -> y = (main, 0)) }.
(** no dimension is shared with itself, directly or indirectly *)
Definition no_circles : Prop := forall x, ~ reaches at_ m x x.
End Good.
