(** Specification for C38: which quantities to_xarray has to include, and what their arrays have to contain. *)
From Verif Require Import Base TreeModel TreeSpec NcMetaModel NcMetaSpec NcFileModel XarrayModel.
From Verif Require Import NcFileProofs.

(** [needed m cs paths p]: p is asked for, an array of structures around a quantity that is asked for, or a coordinate of something needed.
    cs p: the names of the coordinates of p, with dots. *)
Section Needed.
Variable m : meta.
Variable cs : path -> list str.
Variable paths : list path.
Inductive needed : path -> Prop :=
| ne_asked : forall p, In p paths -> needed p
| ne_aos : forall p q c a n, In p paths -> inside q p -> in_ids m q c a n -> mkind c = KAoS -> needed q
| ne_coordinate : forall p q, needed p -> In (dotted q) (cs p) -> Forall (fun s => ~ In "."%char s) q -> q <> [] -> needed q.
(** without paths: everything *)
Definition included (p : path) : Prop := paths = [] \/ needed p.
End Needed.

(** there is data for quantity p *)
Definition filled (m : meta) (n : node) (p : path) : Prop := exists l v, leaf_at m n l v /\ loc_names l = p.
(** value of a cell for which the IDS has no data *)
Definition missing (dt : dtype) (c : cell) : Prop :=
  match dt, c with
  | INT, CInt z => z = (-2147483647)%Z
  | FLT, CFlt f => is_nan f = true
  | CPX, CCpx a b => is_nan a = true /\ is_nan b = true
  | STR, CStr s => s = []
  | _, _ => False
  end.
(** the array f of this shape has the data of quantity p, by the index in the arrays of structures and the index in the values, and nothing else *)
Record has_data (m : meta) (n : node) (p : path) (dt : dtype) (shape : list nat) (f : list nat -> cell) : Prop := {
  hd_all : forall l v ix, leaf_at m n l v -> loc_names l = p -> in_range (value_shape v) ix = true ->
           in_range shape (loc_index l ++ ix) = true /\ f (loc_index l ++ ix) = value_cell v ix;
  hd_only : forall jx, in_range shape jx = true ->
           (exists l v ix, leaf_at m n l v /\ loc_names l = p /\ in_range (value_shape v) ix = true /\ jx = loc_index l ++ ix) \/ missing dt (f jx) }.
(** Coordinates of p are quantities with data, inside no other arrays of structures than those around p, or p itself *)
Definition local_coordinates (m : meta) (cs : path -> list str) : Prop :=
  forall p nm, In nm (cs p) -> exists q c a n, nm = dotted q /\ in_ids m q c a n /\ (exists dt nd, mkind c = KLeaf dt nd) /\
    forall s d b k, in_ids m s d b k -> mkind d = KAoS -> inside s q -> s = p \/ inside s p.
