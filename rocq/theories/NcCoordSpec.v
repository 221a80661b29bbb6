(** Specification for C53: the coordinates of a netCDF variable, read off the data dictionary. *)
From Verif Require Import Base TreeModel NcMetaModel NcMetaSpec.

Section Coordinates.
Variable at_ : path -> nattr.
Variable m : meta.

(** the dimension stands for time: its coordinate is called time *)
Inductive time_axis : axis -> Prop :=
| ta_inside : forall p c a n q others i r b, in_ids m p c a n -> i < ndim c -> (forall e, ~ error_bar p e) ->
    n_refs (at_ p) i = q :: others -> inside p q -> In r (q :: others) -> r = b ++ [strs "time"] -> time_axis (p, i)
| ta_named : forall p c a n i, in_ids m p c a n -> i < ndim c -> (forall e, ~ error_bar p e) ->
    n_refs (at_ p) i = [] -> n_same (at_ p) i = [] -> mname c = strs "time" -> time_axis (p, i).
Definition time_name (d : str) : Prop := exists x, own_dim at_ m x d /\ time_axis x.
(** the quantity of this name is a time coordinate: it names a time dimension, up to the letter *)
Definition time_coordinate (k : str) : Prop := ~ In ":"%char k /\ exists d, time_name d /\ (d = k \/ exists r, d = k ++ ":"%char :: r).

(** names of the elements of an array of structures *)
Definition label (p : path) (c : meta) (k : str) : Prop :=
  exists d, In d (mchildren c) /\ In (mname d) [strs "name"; strs "identifier"; strs "label"] /\ mkind d = KLeaf STR 0 /\ k = dotted (p ++ [mname d]).
(** quantity k is a coordinate of the own dimension x *)
Inductive made_with : axis -> str -> Prop :=
| mw_inside : forall p c a n q others i, in_ids m p c a n -> i < ndim c -> (forall e, ~ error_bar p e) ->
    n_refs (at_ p) i = q :: others -> inside p q -> made_with (p, i) (dotted q)
| mw_label : forall p c a n i k, in_ids m p c a n -> i < ndim c -> (forall e, ~ error_bar p e) ->
    n_refs (at_ p) i = [] -> n_same (at_ p) i = [] -> mkind c = KAoS -> label p c k -> made_with (p, i) k
| mw_own : forall p c a n i, in_ids m p c a n -> i < ndim c -> (forall e, ~ error_bar p e) ->
    n_refs (at_ p) i = [] -> n_same (at_ p) i = [] -> mkind c <> KAoS -> made_with (p, i) (dotted p).
Definition coordinate (x : axis) (k : str) : Prop := made_with x k \/ (snd x = 0 /\ exists q, alternative at_ m q (fst x) /\ k = dotted q).
(** dimension x is the own dimension y *)
Definition comes_from (x y : axis) : Prop := (x = y \/ reaches at_ m x y) /\ (exists d, own_dim at_ m y d) /\ forall z, ~ takes at_ m y z.
(** no two dimensions have the same name *)
Definition one_owner : Prop := forall x y d, own_dim at_ m x d -> own_dim at_ m y d -> x = y.
(** with homogeneous time, all time coordinates are the time of the IDS *)
Definition renamed (h : bool) (k k' : str) : Prop :=
  (h = true /\ time_coordinate k /\ k' = strs "time") \/ (~ (h = true /\ time_coordinate k) /\ k' = k).

(** ** Dictionaries whose coordinates fit their quantities *)
(** the array of structures a is around quantity p *)
Inductive encloses : path -> path -> Prop :=
| en_near : forall p c a n, in_ids m p c (Some a) n -> encloses a p
| en_up : forall p c b n a, in_ids m p c (Some b) n -> encloses a b -> encloses a p.
Record fitting : Prop := {
  (* a shared dimension is one of a quantity inside the same arrays of structures, or fewer *)
  f_takes : forall x y c a n, takes at_ m x y -> in_ids m (fst y) c (Some a) n -> encloses a (fst x);
  f_alternative : forall q p c a n, alternative at_ m q p -> in_ids m q c (Some a) n -> encloses a p;
  (* the coordinate inside an array of structures has one value per element *)
  f_inside : forall p c a n q others i, in_ids m p c a n -> i < ndim c -> (forall e, ~ error_bar p e) -> n_refs (at_ p) i = q :: others -> inside p q ->
             mkind c = KAoS /\ exists c' n', in_ids m q c' (Some p) n' /\ mkind c' <> KStruct /\ ndim c' = 0;
  (* coordinates have one dimension *)
  f_one : forall x y c a n, comes_from x y -> n_refs (at_ (fst x)) (snd x) <> [] -> in_ids m (fst y) c a n -> ndim c = 1 }.
(** ... also with homogeneous time *)
Record fitting_times : Prop := {
  t_root : exists c, in_ids m [strs "time"] c None 0 /\ ndim c = 1 /\ mkind c <> KAoS /\ n_refs (at_ [strs "time"]) 0 = [] /\ n_same (at_ [strs "time"]) 0 = [] /\
           forall y, ~ takes at_ m ([strs "time"], 0) y;
  t_dim : forall y k, coordinate y k -> time_coordinate k -> time_axis y;
  t_label : forall p c a n k, in_ids m p c a n -> mkind c = KAoS -> label p c k -> ~ time_coordinate k }.
End Coordinates.
